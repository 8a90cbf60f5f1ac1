(** Inverse-ray magnification from end to end. *)
From Coq Require Import Reals List Bool Arith ZArith Lia Lra Permutation.
From Coquelicot Require Import Complex.
From Verif Require Import Base_R Base_List Base_C M_Utils M_Coeffs M_PointSource M_Limb M_MergeArea M_ExtSource S_PointSource S_Inverse P_Lens P_PointSource P_Images P_Limb P_ExtSource P_CondExt.
Import ListNotations.
Local Open Scope R_scope.

(** choosing a list of witnesses *)
Lemma choose {A} (d : A) (P : nat -> A -> Prop) n : (forall j, (j < n)%nat -> exists a, P j a) -> exists l, length l = n /\ forall j, (j < n)%nat -> P j (nth j l d).
Proof.
  induction n as [|n IH]; intros H; [exists []; split; [reflexivity|intros; lia]|].
  destruct IH as (l & Hl & Hp); [intros; apply H; lia|]. destruct (H n ltac:(lia)) as [a Ha]. exists (l ++ [a]). split; [rewrite app_length; simpl; lia|].
  intros j Hj. destruct (Nat.lt_ge_cases j n); [rewrite app_nth1 by lia; auto|]. replace j with n by lia. rewrite app_nth2, Hl, Nat.sub_diag by lia. exact Ha.
Qed.
Lemma sumR_nth (l : list R) n : length l = n -> sumR l = sumR (map (fun i => nth i l 0) (seq 0 n)).
Proof. intros <-. f_equal. apply (list_eq_nth 0); [rewrite map_length, seq_length; auto|]. intros i Hi. rewrite (nth_map_lt _ _ i O) by (rewrite seq_length; auto). rewrite seq_nth by auto. reflexivity. Qed.
Lemma sumR_seq_ext f g n : (forall i, (i < n)%nat -> f i = g i) -> sumR (map f (seq 0 n)) = sumR (map g (seq 0 n)).
Proof. intros H. f_equal. apply map_ext_in. intros i Hi. apply in_seq in Hi. apply H. lia. Qed.

Section Sum.
Variables (dist : R -> R -> res R) (D : R -> R -> R) (proc : R -> R -> list R -> res (option R)) (cut : nat) (good : nat -> R -> (nat -> R) -> (nat -> R) -> Prop).
Hypothesis Hdist : forall r t, dist r t = Ok (D r t).
(** what is known about one row: [good n r d ws] for the distances [d] and the weights [ws] *)
Hypothesis Hproc : forall r dth d v, proc r dth d = Ok (Some v) -> exists ws, length ws = (length d - cut)%nat /\ v = r * dth * sumR ws /\ good (length d) r (fun i => nth i d 0) (fun i => nth i ws 0).

Lemma region_sum nr nt g v : (2 <= nr)%nat -> (2 <= nt)%nat -> compute_for_range dist proc nr nt g = Ok (Some v) ->
  exists W : list (list R), v = sumR (map (fun j => cell_area g nr nt j * sumR (map (fun i => nth i (nth j W []) 0) (seq 0 (nt - cut)))) (seq 0 nr)) /\
  forall j, (j < nr)%nat -> let '((rl, rh), (tl, th)) := g in good nt (spaced rl rh nr j) (fun i => nth i (map (fun i => D (spaced rl rh nr j) (spaced tl th nt i)) (seq 0 nt)) 0) (fun i => nth i (nth j W []) 0).
Proof.
  intros Hnr Hnt H. destruct g as [[rl rh] [tl th]]. unfold compute_for_range in H. rewrite !linspace_step in H by auto.
  destruct (res_mapM _ _) as [area|] eqn:Q in H; [|discriminate]. simpl in H. injection H as H. destruct (osum area) as [s|] eqn:O; [|discriminate]. simpl in H. injection H as <-.
  destruct (osum_some _ _ O) as (xs & -> & ->). pose proof (res_mapM_length _ _ _ Q) as L. rewrite map_length, linspace_length in L.
  assert (E : forall r, res_mapM (dist r) (linspace tl th nt) = Ok (map (fun i => D r (spaced tl th nt i)) (seq 0 nt))).
  { intros r. rewrite (mapM_all_ok _ (D r)) by (intros; apply Hdist). unfold linspace. rewrite map_map. reflexivity. }
  destruct (choose [] (fun j ws => nth j xs 0 = spaced rl rh nr j * spacing tl th nt * sumR (map (fun i => nth i ws 0) (seq 0 (nt - cut))) /\
     good nt (spaced rl rh nr j) (fun i => nth i (map (fun i => D (spaced rl rh nr j) (spaced tl th nt i)) (seq 0 nt)) 0) (fun i => nth i ws 0)) nr) as (W & LW & HW).
  { intros j Hj. pose proof (mapM_nth _ _ _ 0 None Q j) as Qj. rewrite linspace_length in Qj. specialize (Qj Hj). rewrite linspace_nth in Qj by auto. cbv beta in Qj. rewrite E in Qj. cbn [res_bind] in Qj.
    rewrite (nth_map_lt Some xs j 0) in Qj by lia. destruct (Hproc _ _ _ _ Qj) as (ws & Lw & Ev & Gd). rewrite map_length, seq_length in Lw, Gd. exists ws. split; [|exact Gd].
    rewrite Ev. unfold spaced, spacing. rewrite (sumR_nth ws (nt - cut)) by auto. reflexivity. }
  exists W. split.
  - rewrite (sumR_nth xs nr) by auto. rewrite <- sumR_map_scal. apply sumR_seq_ext. intros j Hj. destruct (HW j Hj) as [-> _]. unfold cell_area, spacing. ring.
  - intros j Hj. apply HW; auto.
Qed.
Lemma scan_sum nr nt gs : (2 <= nr)%nat -> (2 <= nt)%nat -> forall v0 v, fold_left (fun acc g => res_bind acc (fun a => res_map (olift2 Rplus a) (compute_for_range dist proc nr nt g))) gs (Ok (Some v0)) = Ok (Some v) ->
  exists vs, length vs = length gs /\ v = v0 + sumR vs /\ forall n, (n < length gs)%nat -> compute_for_range dist proc nr nt (nth n gs no_sector) = Ok (Some (nth n vs 0)).
Proof.
  intros Hnr Hnt. induction gs as [|g gs IH]; intros v0 v H.
  - cbn in H. injection H as <-. exists []. split; [reflexivity|]. split; [simpl; ring|]. intros n Hn. simpl in Hn. lia.
  - cbn [fold_left res_bind] in H. destruct (compute_for_range dist proc nr nt g) as [[x|]|e] eqn:Q.
    + cbn [res_map olift2] in H. destruct (IH _ _ H) as (vs & Lv & -> & Hv). exists (x :: vs). split; [simpl; lia|]. split; [simpl; ring|]. intros [|n] Hn; [exact Q|]. apply Hv. simpl in Hn. lia.
    + exfalso. cbn [res_map olift2] in H. clear -H. induction gs as [|g' gs IH]; cbn in H; [discriminate|]. destruct (compute_for_range dist proc nr nt g') as [o|]; cbn in H; [apply IH; exact H|]. clear IH. induction gs; cbn in H; [discriminate|auto].
    + exfalso. cbn [res_map] in H. clear -H. induction gs; cbn in H; [discriminate|auto].
Qed.
Lemma total_sum nr nt gs v : (2 <= nr)%nat -> (2 <= nt)%nat -> scan_regions (compute_for_range dist proc nr nt) gs = Ok (Some v) ->
  exists W : nat -> nat -> nat -> R, v = area_sum gs nr nt (nt - cut) W /\
  forall n j, (n < length gs)%nat -> (j < nr)%nat -> let '((rl, rh), (tl, th)) := nth n gs no_sector in good nt (spaced rl rh nr j) (fun i => nth i (map (fun i => D (spaced rl rh nr j) (spaced tl th nt i)) (seq 0 nt)) 0) (W n j).
Proof.
  intros Hnr Hnt H. destruct (scan_sum nr nt gs Hnr Hnt 0 v H) as (vs & Lv & -> & Hv). rewrite Rplus_0_l.
  destruct (choose [] (fun n W => nth n vs 0 = sumR (map (fun j => cell_area (nth n gs no_sector) nr nt j * sumR (map (fun i => nth i (nth j W []) 0) (seq 0 (nt - cut)))) (seq 0 nr)) /\
    forall j, (j < nr)%nat -> let '((rl, rh), (tl, th)) := nth n gs no_sector in good nt (spaced rl rh nr j) (fun i => nth i (map (fun i => D (spaced rl rh nr j) (spaced tl th nt i)) (seq 0 nt)) 0) (fun i => nth i (nth j W []) 0)) (length gs)) as (Ws & LW & HW).
  { intros n Hn. destruct (region_sum nr nt _ _ Hnr Hnt (Hv n Hn)) as (W & E & G). exists W. auto. }
  exists (fun n j i => nth i (nth j (nth n Ws []) []) 0). split.
  - unfold area_sum. rewrite (sumR_nth vs (length gs)) by auto. apply sumR_seq_ext. intros n Hn. apply HW; auto.
  - intros n j Hn Hj. destruct (HW n Hn) as [_ G]. apply G; auto.
Qed.
End Sum.

(** ** frames *)
Lemma triple_frame s q q3 r3 psi : 1 + q <> 0 -> 1 + q + q3 <> 0 ->
  Permutation (triple_lens s q q3 (from_midpoint s q r3 psi)) (shift_lens (RtoC (x_cm (0.5 * s) q)) (triple_mid (0.5 * s) (q / (1 + q + q3)) (1 / (1 + q + q3)) (third_lens r3 psi))).
Proof.
  intros Hq Hq3. unfold triple_lens, shift_lens, triple_mid, x_cm; simpl. change 0.5 with (5 / 10).
  rewrite <- !RtoC_plus.
  replace (5/10 * s + 5/10 * s * (1 - q) / (1 + q)) with (s / (1 + q)) by (field; auto).
  replace (- (5/10 * s) + 5/10 * s * (1 - q) / (1 + q)) with (- s * q / (1 + q)) by (field; auto).
  replace (1 - q / (1 + q + q3) - 1 / (1 + q + q3)) with (q3 / (1 + q + q3)) by (field; auto).
  replace (third_lens r3 psi + RtoC (5/10 * s * (1 - q) / (1 + q)))%C with (from_midpoint s q r3 psi). 2: { unfold from_midpoint, third_lens, from_com, cexpi. apply Ceq; simpl; field; auto. }
  apply perm_swap.
Qed.
Lemma dist2 s q p r t w : 1 + q <> 0 -> p_a p = Some (0.5 * s) -> p_e1 p = Some (q / (1 + q)) ->
  distance_from_source 2 p r t (w - RtoC (x_cm (0.5 * s) q))%C (x_cm (0.5 * s) q) = Ok (Cmod (lens_map (binary_lens s q) (polar r t) - w)%C).
Proof.
  intros Hq Ea Ee. unfold distance_from_source, lens_eq. cbn [Z.eqb Pos.eqb]. rewrite Ea, Ee. cbn [getp res_map]. f_equal. rewrite lens_eq2_map. rewrite (frame_lens _ _ _ (polar r t) (binary_frame s q Hq)). f_equal. unfold polar. set (c := RtoC (x_cm (0.5 * s) q)). set (m := lens_map _ _). ring.
Qed.
Lemma dist3 s q q3 r3 psi p r t w : 1 + q <> 0 -> 1 + q + q3 <> 0 -> p_a p = Some (0.5 * s) -> p_e1 p = Some (q / (1 + q + q3)) -> p_e2 p = Some (1 / (1 + q + q3)) -> p_r3 p = Some r3 -> p_psi p = Some psi ->
  distance_from_source 3 p r t (w - RtoC (x_cm (0.5 * s) q))%C (x_cm (0.5 * s) q) = Ok (Cmod (lens_map (triple_lens s q q3 (from_midpoint s q r3 psi)) (polar r t) - w)%C).
Proof.
  intros Hq Hq3 Ea Ee Ee2 Er Ep. unfold distance_from_source, lens_eq. cbn [Z.eqb Pos.eqb]. rewrite Ea, Ee, Ee2, Er, Ep. cbn [getp res_map]. f_equal. rewrite lens_eq3_map. rewrite (frame_lens _ _ _ (polar r t) (triple_frame s q q3 r3 psi Hq Hq3)). f_equal. unfold polar. set (c := RtoC (x_cm (0.5 * s) q)). set (m := lens_map _ _). ring.
Qed.

(** ** limb images *)
Lemma ravel_nth {A} (d : A) nb cols k : (k < nb * length cols)%nat -> nth k (ravel_cols d nb cols) d = nth (k / length cols) (nth (k mod length cols) cols []) d.
Proof.
  intros H. assert (Hc : length cols <> 0%nat) by (intros E; rewrite E in H; lia). unfold ravel_cols.
  assert (G : forall s, nth k (flat_map (fun b => map (fun col => nth b col d) cols) (seq s nb)) d = nth (s + k / length cols) (nth (k mod length cols) cols []) d).
  { revert k H. induction nb as [|nb IH]; intros k H s; [lia|]. cbn [seq flat_map]. destruct (Nat.lt_ge_cases k (length cols)).
    - rewrite app_nth1 by (rewrite map_length; auto). rewrite (nth_map_lt _ _ k []) by auto. rewrite Nat.div_small, Nat.mod_small by auto. rewrite Nat.add_0_r. reflexivity.
    - rewrite app_nth2 by (rewrite map_length; auto). rewrite map_length. rewrite (IH (k - length cols)%nat) by lia.
      replace k with (k - length cols + 1 * length cols)%nat at 3 4 by lia. rewrite Nat.div_add, Nat.mod_add by auto. f_equal. lia. }
  rewrite (G 0%nat). reflexivity.
Qed.
Lemma ravel_len {A} (d : A) nb cols : length (ravel_cols d nb cols) = (nb * length cols)%nat.
Proof. unfold ravel_cols. generalize 0%nat. induction nb as [|nb IH]; intros s; [reflexivity|]. cbn [seq flat_map]. rewrite app_length, map_length, IH. lia. Qed.
(** a listed limb image is an image of a limb point *)
Lemma limb_image images nimg s q w rho n (near : C -> C -> Prop) : (forall w', length (snd (images w')) = length (fst (images w'))) ->
  (forall w' i, nth i (snd (images (w' - RtoC (x_cm (0.5 * s) q))%C)) false = true -> near (nth i (fst (images (w' - RtoC (x_cm (0.5 * s) q))%C)) (RtoC 0) + RtoC (x_cm (0.5 * s) q))%C w') ->
  let out := source_limb images nimg (0.5 * s) q w rho n in length (snd out) = length (fst out) /\
  forall k, (k < length (fst out))%nat -> nth k (snd out) false = true -> exists t, near (nth k (fst out) (RtoC 0)) (w + RtoC rho * cexpi t)%C.
Proof.
  intros HL HN out. unfold out, source_limb. cbn [fst snd]. set (c := RtoC (x_cm (0.5 * s) q)) in *. set (pts := limb_points w rho n). rewrite !map_map. cbv zeta. rewrite map_length, !ravel_len, !map_length. split; [reflexivity|].
  intros k Hk Hm. rewrite (nth_map_lt _ _ k (RtoC 0)) by (rewrite ravel_len, map_length; auto). rewrite ravel_nth in Hm by (rewrite map_length; auto). rewrite ravel_nth by (rewrite map_length; auto). rewrite !map_length in *.
  set (i := (k / length pts)%nat) in *. set (j := (k mod length pts)%nat) in *. assert (Hj : (j < length pts)%nat) by (apply Nat.mod_upper_bound; intros E; rewrite E in Hk; lia).
  rewrite (nth_map_lt _ pts j (RtoC 0)) in Hm by auto. rewrite (nth_map_lt _ pts j (RtoC 0)) by auto. set (w' := nth j pts (RtoC 0)) in *. assert (I : In w' pts) by (apply nth_In; auto). unfold pts, limb_points in I. apply in_map_iff in I as (t & Et & _).
  exists t. rewrite Et. apply HN. exact Hm.
Qed.
Lemma limb2 solver s q w rho n : 1 + q <> 0 -> let out := source_limb (fun w => images2 solver (0.5 * s) (q / (1 + q)) w None) 5 (0.5 * s) q w rho n in length (snd out) = length (fst out) /\
  forall k, (k < length (fst out))%nat -> nth k (snd out) false = true -> exists t, Cmod (lens_map (binary_lens s q) (nth k (fst out) (RtoC 0)) - (w + RtoC rho * cexpi t))%C < 1e-6.
Proof.
  intros Hq. apply (limb_image _ _ _ _ _ _ _ (fun z w' => Cmod (lens_map (binary_lens s q) z - w')%C < 1e-6)); [intros; cbn; apply map_length|].
  intros w' i Hm. cbn [fst snd images2] in *. set (zs := solver _ _) in *. assert (Hi : (i < length zs)%nat). { destruct (Nat.lt_ge_cases i (length zs)); auto. rewrite nth_overflow in Hm by (rewrite map_length; auto). discriminate. }
  rewrite (nth_map_lt _ _ _ (RtoC 0)) in Hm by auto. apply Rltb_true in Hm. rewrite (frame_lens _ _ _ _ (binary_frame s q Hq)). set (c := RtoC (x_cm (0.5 * s) q)) in *. set (r := nth i zs (RtoC 0)) in *.
  replace (r + c - c)%C with r by ring. rewrite <- lens_eq2_map. replace (lens_eq2 (0.5 * s) (q / (1 + q)) r + c - w')%C with (lens_eq2 (0.5 * s) (q / (1 + q)) r - (w' - c))%C by ring. exact Hm.
Qed.
Lemma limb3 solver s q q3 r3 psi w rho n : 1 + q <> 0 -> 1 + q + q3 <> 0 -> let out := source_limb (images3 solver (0.5 * s) r3 psi (q / (1 + q + q3)) (1 / (1 + q + q3))) 10 (0.5 * s) q w rho n in length (snd out) = length (fst out) /\
  forall k, (k < length (fst out))%nat -> nth k (snd out) false = true -> exists t, Cmod (lens_map (triple_lens s q q3 (from_midpoint s q r3 psi)) (nth k (fst out) (RtoC 0)) - (w + RtoC rho * cexpi t))%C < 1e-3.
Proof.
  intros Hq Hq3. apply (limb_image _ _ _ _ _ _ _ (fun z w' => Cmod (lens_map (triple_lens s q q3 (from_midpoint s q r3 psi)) z - w')%C < 1e-3)).
  - intros w'. unfold images3. destruct (poly_coeffs_triple_CM _ _ _ _ _) as [cs sh]. cbn [fst snd]. apply map_length.
  - intros w' i. unfold images3. destruct (poly_coeffs_triple_CM _ _ _ _ _) as [cs sh]. cbn [fst snd]. set (zs := map _ (solver _ _)). intros Hm. assert (Hi : (i < length zs)%nat). { destruct (Nat.lt_ge_cases i (length zs)); auto. rewrite nth_overflow in Hm by (rewrite map_length; auto). discriminate. }
    rewrite (nth_map_lt _ _ _ (RtoC 0)) in Hm by auto. apply Rltb_true in Hm. rewrite (frame_lens _ _ _ _ (triple_frame s q q3 r3 psi Hq Hq3)). set (c := RtoC (x_cm (0.5 * s) q)) in *. set (r := nth i zs (RtoC 0)) in *.
    replace (r + c - c)%C with r by ring. rewrite <- lens_eq3_map. replace (lens_eq3 (0.5 * s) r3 psi (q / (1 + q + q3)) (1 / (1 + q + q3)) r + c - w')%C with (lens_eq3 (0.5 * s) r3 psi (q / (1 + q + q3)) (1 / (1 + q + q3)) r - (w' - c))%C by ring. exact Hm.
Qed.
Lemma limb_complete images nimg s q w rho n j i : (j < n)%nat -> (i < nimg)%nat -> let c := RtoC (x_cm (0.5 * s) q) in let w' := (w + RtoC rho * cexpi (spaced 0 (2 * PI) n j))%C in
  let out := source_limb images nimg (0.5 * s) q w rho n in
  exists k, (k < length (fst out))%nat /\ nth k (fst out) (RtoC 0) = (nth i (fst (images (w' - c)%C)) (RtoC 0) + c)%C /\ nth k (snd out) false = nth i (snd (images (w' - c)%C)) false.
Proof.
  intros Hj Hi c w' out. unfold out, source_limb. cbn [fst snd]. fold c. set (pts := limb_points w rho n). assert (Lp : length pts = n) by (unfold pts, limb_points; rewrite map_length; apply linspace_length). rewrite !map_map.
  assert (Ew : nth j pts (RtoC 0) = w'). { unfold pts, limb_points. rewrite (nth_map_lt _ _ j 0) by (rewrite linspace_length; auto). rewrite linspace_nth by auto. reflexivity. }
  assert (B : (i * n + j < nimg * n)%nat) by nia. assert (Dv : ((i * n + j) / n = i)%nat) by (rewrite Nat.div_add_l by lia; rewrite Nat.div_small by auto; lia). assert (Md : ((i * n + j) mod n = j)%nat) by (rewrite Nat.add_comm, Nat.mod_add by lia; apply Nat.mod_small; auto).
  exists (i * n + j)%nat. rewrite map_length, ravel_len, map_length, Lp. split; [auto|]. split.
  - rewrite (nth_map_lt _ _ _ (RtoC 0)) by (rewrite ravel_len, map_length, Lp; auto). rewrite ravel_nth by (rewrite map_length, Lp; auto). rewrite map_length, Lp, Dv, Md. rewrite (nth_map_lt _ pts j (RtoC 0)) by lia. rewrite Ew. reflexivity.
  - rewrite ravel_nth by (rewrite map_length, Lp; auto). rewrite map_length, Lp, Dv, Md. rewrite (nth_map_lt _ pts j (RtoC 0)) by lia. rewrite Ew. reflexivity.
Qed.
