(** End-to-end facts about the three light-curve functions. *)
From Coq Require Import Reals List Bool Arith ZArith Lia Lra.
From Coquelicot Require Import Coquelicot.
From Verif Require Import Base_R Base_List Base_C M_Utils M_Assembly M_Coeffs M_PointSource M_Limb M_Multipole
  M_MergeArea M_ExtSource M_CondExt S_Assembly S_PointSource P_Assembly P_ExtSource P_CondExt.
Import ListNotations.
Local Open Scope R_scope.
Local Open Scope C_scope.

Section Solver.
Variable poly_roots : list C -> option (list C) -> list C.

(** ** bad calls *)
Lemma mag_binary_missing p cfg u1 dc mf chunk ws rho : p_s p = None \/ p_q p = None ->
  mag_binary poly_roots p cfg u1 dc mf chunk ws rho = Raise ValueError.
Proof. intros [H|H]; unfold mag_binary; rewrite H; [reflexivity|]. destruct (p_s p); reflexivity. Qed.
Lemma mag_triple_missing p cfg u1 dc mf chunk ws rho : p_s p = None \/ p_q p = None \/ p_q3 p = None ->
  mag_triple poly_roots p cfg u1 dc mf chunk ws rho = Raise KeyError.
Proof.
  unfold mag_triple. destruct (p_s p); simpl; auto. destruct (p_q p); simpl; auto. destruct (p_q3 p); simpl; auto.
  intros [H|[H|H]]; discriminate.
Qed.
Lemma binary_points_ok p a e1 q rho u1 x ws : p_a p = Some a -> p_e1 p = Some e1 ->
  exists pts : list (option R * bool), res_mapM (fun w => binary_point poly_roots p a e1 q rho u1 (w - x)) ws = Ok pts /\ length pts = length ws /\
    forall i, (i < length ws)%nat -> binary_point poly_roots p a e1 q rho u1 (nth i ws (RtoC 0) - x) = Ok (nth i pts (None, false)).
Proof.
  intros Ea Ee.
  assert (Q : forall w, exists r, binary_point poly_roots p a e1 q rho u1 w = Ok r).
  { intros w. rewrite (binary_point_eq poly_roots p a e1 q rho u1 w Ea Ee). destruct (images2 _ _ _ _ _). eexists; reflexivity. }
  assert (P : exists pts, res_mapM (fun w => binary_point poly_roots p a e1 q rho u1 (w - x)) ws = Ok pts).
  { induction ws as [|w ws IH]. eexists; reflexivity. destruct (Q (w - x)) as (r & Hr). destruct IH as (l & Hl).
    exists (r :: l). cbn [res_mapM]. rewrite Hr. cbn [res_bind]. rewrite Hl. reflexivity. }
  destruct P as (pts & HP). exists pts. pose proof (res_mapM_length _ _ _ HP) as L. repeat split; auto.
  intros i Hi. exact (mapM_nth _ _ _ (RtoC 0) (None, false) HP i Hi).
Qed.
Lemma mag_binary_chunk0 p cfg u1 dc mf ws rho s q : p_s p = Some s -> p_q p = Some q ->
  mag_binary poly_roots p cfg u1 dc mf 0 ws rho = Raise ZeroDivisionError.
Proof.
  intros Es Eq. unfold mag_binary. rewrite Es, Eq.
  destruct (binary_points_ok (with_a_e1 p (0.5 * s)%R (q / (1 + q))%R) (0.5 * s)%R (q / (1 + q))%R q rho u1 (x_cm (0.5 * s)%R q) ws eq_refl eq_refl) as (pts & -> & _).
  reflexivity.
Qed.
(** when it raises with good parameters, the integrator raised at one of the requested positions *)
Lemma mapM_id_raise {A} (l : list (res A)) e : res_mapM (fun m => m) l = Raise e -> In (Raise e) l.
Proof.
  induction l as [|x l IH]; [discriminate|]. cbn [res_mapM]. destruct x as [x|e']; cbn [res_bind].
  - destruct (res_mapM (fun m => m) l) as [?|e'']; cbn [res_map]; [discriminate|]. intros H. right. apply IH. exact H.
  - intros H. left. congruence.
Qed.
Lemma mag_binary_raise p cfg u1 dc mf chunk ws rho s q e : p_s p = Some s -> p_q p = Some q -> chunk <> 0%nat ->
  mag_binary poly_roots p cfg u1 dc mf chunk ws rho = Raise e ->
  exists w, In w ws /\ (if Reqb u1 0 then mag_uniform poly_roots 2 p cfg rho w else mag_limb_dark poly_roots 2 p cfg u1 dc rho w) = Raise e.
Proof.
  intros Es Eq Hc H. unfold mag_binary in H. rewrite Es, Eq in H.
  destruct (binary_points_ok (with_a_e1 p (0.5 * s)%R (q / (1 + q))%R) (0.5 * s)%R (q / (1 + q))%R q rho u1 (x_cm (0.5 * s)%R q) ws eq_refl eq_refl) as (pts & E1 & LP & _).
  rewrite E1 in H. cbn [res_bind] in H.
  destruct (assemble_spec (RtoC 0) (Ok None) (mag_full poly_roots 2 (with_a_e1 p (0.5 * s)%R (q / (1 + q))%R) cfg u1 dc rho) ws
     (map (fun r : option R * bool => Ok (fst r)) pts) (map snd pts) mf chunk Hc) as (mags & QA & LM & HM);
   [now rewrite map_length|now rewrite map_length|].
  rewrite QA in H. cbn [res_bind] in H. apply mapM_id_raise in H. apply (In_nth _ _ (Ok None)) in H as (i & Hi & Hn).
  rewrite LM in Hi. rewrite HM in Hn by exact Hi. unfold expected_mag in Hn.
  rewrite (nth_map_lt (fun r : option R * bool => Ok (fst r)) pts i (None, false) (Ok None)) in Hn by lia.
  destruct (nth i (map snd pts) false); [discriminate|]. destruct (_ <? _)%nat; [|discriminate].
  rewrite (mag_full_params poly_roots p cfg u1 dc rho _ s q Es Eq) in Hn.
  exists (nth i ws (RtoC 0)). split; auto. now apply nth_In.
Qed.

(** ** the budget of full evaluations *)
(** with no budget nothing but the multipole values *)
Lemma mag_binary_nobudget p cfg cfg' u1 dc dc' chunk ws rho s q : p_s p = Some s -> p_q p = Some q -> chunk <> 0%nat ->
  mag_binary poly_roots p cfg u1 dc 0 chunk ws rho = mag_binary poly_roots p cfg' u1 dc' 0 1 ws rho /\
  exists out, mag_binary poly_roots p cfg u1 dc 0 chunk ws rho = Ok out /\ length out = length ws.
Proof.
  intros Es Eq Hc.
  destruct (binary_points_ok (with_a_e1 p (0.5 * s)%R (q / (1 + q))%R) (0.5 * s)%R (q / (1 + q))%R q rho u1 (x_cm (0.5 * s)%R q) ws eq_refl eq_refl) as (pts & E1 & LP & _).
  assert (G : forall c d k, k <> 0%nat -> mag_binary poly_roots p c u1 d 0 k ws rho = Ok (map fst pts)).
  { intros c d k Hk. unfold mag_binary. rewrite Es, Eq, E1. cbn [res_bind].
    rewrite assemble_no_budget by (auto; now rewrite map_length). cbn [res_bind].
    clear. induction pts as [|r l IH]; [reflexivity|]. cbn [map res_mapM res_bind]. rewrite IH. reflexivity. }
  rewrite !G by lia. split; auto. eexists; split; [reflexivity|]. now rewrite map_length.
Qed.
Lemma mag_triple_budget p cfg u1 dc mf chunk ws rho s q q3 out : p_s p = Some s -> p_q p = Some q -> p_q3 p = Some q3 ->
  mag_triple poly_roots p cfg u1 dc mf chunk ws rho = Ok out ->
  length out = length ws /\ forall i, (i < py_prefix_len mf (length ws))%nat ->
    (if Reqb u1 0 then mag_uniform poly_roots 3 p cfg rho (nth i ws (RtoC 0))
     else mag_limb_dark poly_roots 3 p cfg u1 dc rho (nth i ws (RtoC 0))) = Ok (nth i out None).
Proof.
  intros Es Eq Eq3 H. unfold mag_triple in H. rewrite Es, Eq, Eq3 in H. cbn [getp] in H. cbv zeta in H.
  destruct (res_mapM _ ws) as [mu|] eqn:QP; [|discriminate]. cbn [res_bind] in H.
  destruct (assemble _ _ _ _ _ _ _ _) as [mags|] eqn:QA; [|discriminate]. cbn [res_bind] in H.
  assert (Hc : chunk <> 0%nat) by (intros ->; unfold assemble, chunked_vmap in QA; simpl in QA; discriminate).
  pose proof (res_mapM_length _ _ _ QP) as LP. pose proof (res_mapM_length _ _ _ H) as LO.
  match type of QA with assemble _ _ ?full _ ?mm _ _ _ = _ =>
    destruct (assemble_triple (RtoC 0) (Ok None) full ws mm mf chunk Hc) as (mags' & QA' & LM & HM) end; [now rewrite map_length|].
  rewrite QA in QA'. injection QA' as <-. split; [congruence|]. intros i Hi.
  pose proof (py_prefix_len_le mf (length ws)).
  rewrite <- (mapM_nth _ _ _ (Ok None) None H i) by lia. rewrite HM by lia.
  destruct (Nat.ltb_spec i (py_prefix_len mf (length ws))); [|lia].
  unfold mag_full, mag_uniform, mag_limb_dark, ext_params. simpl. rewrite Es, Eq, Eq3. reflexivity.
Qed.

(** ** caustics.magnifications *)
Lemma cond_finish (full : C -> res (option R)) (pts : list (option R * bool)) ws out : length pts = length ws ->
  res_mapM (fun m => m) (cond_map full (map snd pts) (map (fun r => Ok (fst r)) pts) ws) = Ok out ->
  length out = length ws /\ forall i, (i < length ws)%nat ->
    if snd (nth i pts (None, false)) then nth i out None = fst (nth i pts (None, false)) else full (nth i ws (RtoC 0)) = Ok (nth i out None).
Proof.
  intros L H. destruct (cond_map_spec full (Ok None) (RtoC 0) (map snd pts) (map (fun r => Ok (fst r)) pts) ws) as (A & B); try (now rewrite map_length).
  pose proof (res_mapM_length _ _ _ H) as LO. split; [congruence|]. intros i Hi.
  pose proof (mapM_nth _ _ _ (Ok None) None H i) as M. rewrite B in M by exact Hi.
  rewrite (nth_map_lt snd pts i (None, false) false) in M by lia.
  rewrite (nth_map_lt (fun r : option R * bool => Ok (fst r)) pts i (None, false) (Ok None)) in M by lia.
  destruct (snd (nth i pts (None, false))).
  - specialize (M ltac:(lia)). apply (f_equal (fun r => match r with Ok x => x | _ => None end)) in M. cbv beta iota in M. auto.
  - apply M; lia.
Qed.
Definition accepts2 (p : params) (s q rho : R) (w : C) : bool :=
  match binary_point poly_roots (mkparams None None None None None (Some (0.5 * s)%R) (Some (q / (1 + q))%R) None) (0.5 * s)%R (q / (1 + q))%R q rho 0 (w - x_cm (0.5 * s)%R q) with
  | Ok (_, t) => t | _ => false end.
Lemma magnifications_binary full p ws rho s q out : p_s p = Some s -> p_q p = Some q ->
  magnifications poly_roots full 2 p ws rho = Ok out ->
  length out = length ws /\ forall i, (i < length ws)%nat ->
    full (nth i ws (RtoC 0)) = Ok (nth i out None) \/
    exists v m, nth i out None = Some v /\ mag_point_source poly_roots 2 p (nth i ws (RtoC 0)) = Ok m /\ (Rabs (v - m) < 1 / 100)%R.
Proof.
  intros Es Eq H. unfold magnifications in H. simpl in H. rewrite Es, Eq in H. cbn [getp] in H. cbv zeta in H.
  destruct (binary_points_ok (mkparams None None None None None (Some (0.5 * s)%R) (Some (q / (1 + q))%R) None) (0.5 * s)%R (q / (1 + q))%R q rho 0 (x_cm (0.5 * s)%R q) ws eq_refl eq_refl) as (pts & E1 & LP & HB).
  rewrite E1 in H. cbn [res_bind] in H. destruct (cond_finish full pts ws out LP H) as (LO & HX). split; auto.
  intros i Hi. specialize (HX i Hi). specialize (HB i Hi). destruct (nth i pts (None, false)) as [mu t]. cbn [fst snd] in HX. destruct t; auto.
  right. destruct (binary_point_close poly_roots (mkparams None None None None None (Some (0.5 * s)%R) (Some (q / (1 + q))%R) None) (0.5 * s)%R (q / (1 + q))%R _ _ _ _ _ eq_refl eq_refl HB) as (v & -> & L).
  exists v, (sum_inv_det (det_jac2 (0.5 * s)%R (q / (1 + q))%R) (images2 poly_roots (0.5 * s)%R (q / (1 + q))%R (nth i ws (RtoC 0) - x_cm (0.5 * s)%R q) None)).
  split; auto. split; auto. unfold mag_point_source. simpl. rewrite Es, Eq. reflexivity.
Qed.
(** the integrator (and with it limb darkening) has no influence on an accepted position *)
Lemma magnifications_accept p ws rho s q : p_s p = Some s -> p_q p = Some q ->
  exists (acc : list bool) (mu : list (option R)), length acc = length ws /\ length mu = length ws /\
    forall full out, magnifications poly_roots full 2 p ws rho = Ok out -> forall i, (i < length ws)%nat ->
      if nth i acc false then nth i out None = nth i mu None else full (nth i ws (RtoC 0)) = Ok (nth i out None).
Proof.
  intros Es Eq.
  destruct (binary_points_ok (mkparams None None None None None (Some (0.5 * s)%R) (Some (q / (1 + q))%R) None) (0.5 * s)%R (q / (1 + q))%R q rho 0 (x_cm (0.5 * s)%R q) ws eq_refl eq_refl) as (pts & E1 & LP & HB).
  exists (map snd pts), (map fst pts). rewrite !map_length. repeat split; auto.
  intros full out H. unfold magnifications in H. simpl in H. rewrite Es, Eq in H. cbn [getp] in H. cbv zeta in H.
  rewrite E1 in H. cbn [res_bind] in H. destruct (cond_finish full pts ws out LP H) as (LO & HX).
  intros i Hi. specialize (HX i Hi).
  rewrite (nth_map_lt snd pts i (None, false) false) by lia. rewrite (nth_map_lt fst pts i (None, false) None) by lia. exact HX.
Qed.
Lemma magnifications_triple full p ws rho s q q3 r3 psi : p_s p = Some s -> p_q p = Some q -> p_q3 p = Some q3 -> p_r3 p = Some r3 -> p_psi p = Some psi ->
  magnifications poly_roots full 3 p ws rho = res_mapM full ws.
Proof.
  intros Es Eq E3 Er Ep. unfold magnifications. simpl. rewrite Es, Eq, E3, Er, Ep. cbn [getp].
  induction ws as [|w ws IH]; [reflexivity|]. cbn [map cond_map snd fst res_mapM]. destruct (full w); cbn [res_bind]; auto. now rewrite IH.
Qed.
Lemma magnifications_other full nl p ws rho : nl <> 1%Z -> nl <> 2%Z -> nl <> 3%Z -> magnifications poly_roots full nl p ws rho = Raise ValueError.
Proof. intros A B D. unfold magnifications. apply Z.eqb_neq in A, B, D. now rewrite A, B, D. Qed.
Lemma magnifications_missing2 full p ws rho : p_s p = None \/ p_q p = None -> magnifications poly_roots full 2 p ws rho = Raise KeyError.
Proof. intros [H|H]; unfold magnifications; simpl; rewrite H; auto. destruct (p_s p); auto. Qed.

(** one lens: two positions at the same distance are treated differently *)
Lemma magnifications_right p ws rho : List.Forall (fun w : C => (2 * rho < Re w)%R) ws ->
  exists out, length out = length ws /\ forall full, magnifications poly_roots full 1 p ws rho = Ok out.
Proof.
  intros H.
  assert (G : exists pts : list (option R * bool), length pts = length ws /\ forallb snd pts = true /\
     res_mapM (fun w => let '(z, z_mask) := images1 w in
       res_map (fun md => ((if existsb (fun zi => Reqb (Cmod zi) 0 || Reqb (Cmod zi) 1) z then None else Some (fst md)),
                           complex_gtb w (2 * rho)))
         (mag_hexadecapole 1 no_params z z_mask rho 0)) ws = Ok pts).
  { induction ws as [|w ws IH]. exists []; repeat split; auto. inversion H as [|? ? H1 H2]; subst.
    destruct (IH H2) as (pts & L & Fb & E). destruct (images1 w) as [z m] eqn:Qi.
    exists (((if existsb (fun zi => Reqb (Cmod zi) 0 || Reqb (Cmod zi) 1) z then None else Some (fst (hex_sum W_one z m rho 0))), complex_gtb w (2 * rho)) :: pts).
    split; [simpl; lia|]. split. cbn [forallb snd]. rewrite Fb. unfold complex_gtb. now rewrite (proj2 (Rltb_true _ _) H1).
    cbn [res_mapM]. rewrite Qi, E. reflexivity. }
  destruct G as (pts & L & Fb & E). exists (map fst pts). split; [now rewrite map_length|].
  intros full. unfold magnifications. simpl Z.eqb. cbv iota. cbv zeta. rewrite E. cbn [res_bind].
  clear E H. revert ws L. induction pts as [|[m t] pts IH]; intros [|w ws] L; try discriminate; [reflexivity|].
  cbn [forallb snd] in Fb. apply andb_prop in Fb as (-> & Fb). cbn [map cond_map snd fst res_mapM res_bind].
  rewrite (IH Fb ws) by (simpl in L; lia). reflexivity.
Qed.
Lemma magnifications_left full p ws rho : List.Forall (fun w : C => (Re w < 2 * rho)%R) ws ->
  magnifications poly_roots full 1 p ws rho = res_mapM full ws.
Proof.
  intros H. unfold magnifications. simpl Z.eqb. cbv iota zeta.
  assert (G : exists pts : list (option R * bool), length pts = length ws /\ forallb (fun r => negb (snd r)) pts = true /\
     res_mapM (fun w => let '(z, z_mask) := images1 w in
       res_map (fun md => ((if existsb (fun zi => Reqb (Cmod zi) 0 || Reqb (Cmod zi) 1) z then None else Some (fst md)),
                           complex_gtb w (2 * rho)))
         (mag_hexadecapole 1 no_params z z_mask rho 0)) ws = Ok pts).
  { induction ws as [|w ws IH]. exists []; repeat split; auto. inversion H as [|? ? H1 H2]; subst.
    destruct (IH H2) as (pts & L & Fb & E). destruct (images1 w) as [z m] eqn:Qi.
    exists (((if existsb (fun zi => Reqb (Cmod zi) 0 || Reqb (Cmod zi) 1) z then None else Some (fst (hex_sum W_one z m rho 0))), complex_gtb w (2 * rho)) :: pts).
    split; [simpl; lia|]. split. cbn [forallb snd]. rewrite Fb. unfold complex_gtb.
    destruct (Rltb_spec (2 * rho) (Re w)); [lra|]. destruct (Reqb_spec (Re w) (2 * rho)); [lra|]. reflexivity.
    cbn [res_mapM]. rewrite Qi, E. reflexivity. }
  destruct G as (pts & L & Fb & E). rewrite E. cbn [res_bind].
  clear E H. revert ws L. induction pts as [|[m t] pts IH]; intros [|w ws] L; try discriminate; [reflexivity|].
  cbn [forallb snd] in Fb. apply andb_prop in Fb as (T & Fb). apply negb_true_iff in T as ->. cbn [map cond_map snd fst res_mapM res_bind].
  rewrite (IH Fb ws) by (simpl in L; lia). reflexivity.
Qed.
End Solver.
