(** End-to-end correctness of the contour total of the extended-source magnification. *)
From Coq Require Import Reals Lra Lia Bool List Arith ZArith Permutation.
From Coquelicot Require Import Complex.
From Verif Require Import Base_R Base_List Base_C M_Utils S_Utils P_Utils M_Coeffs M_PointSource M_Contour S_Contour P_Contour M_Segments P_Segments M_SegMerge P_SegMerge
  P_Process M_SourceLimb S_SourceLimb P_SourceLimb S_PointSource P_PointSource M_MagExt S_MagExt.
Import ListNotations.
Local Open Scope R_scope.

Section Rows.
Variables (z : list C) (m : list bool) (par : list R) (n : nat).
Hypothesis (Lz : length z = n) (Lm : length m = n) (Lp : length par = n).
Let t := mask_track z m par.

Lemma mt_z i : nth i (t_z t) (RtoC 0) = if nth i m false then nth i z (RtoC 0) else RtoC 0.
Proof.
  unfold t, mask_track. cbn [t_z]. destruct (Nat.lt_ge_cases i n).
  - rewrite nth_map_lt with (da := (RtoC 0, false)) by (rewrite combine_length; lia). rewrite combine_nth by lia. cbn [fst snd].
    destruct (nth i m false); unfold b2r; ring.
  - rewrite !nth_overflow by (rewrite ?map_length, ?combine_length; lia). auto.
Qed.
Lemma mt_p i : nth i (t_par t) 0 = if nth i m false then nth i par 0 else 0.
Proof.
  unfold t, mask_track. cbn [t_par]. destruct (Nat.lt_ge_cases i n).
  - rewrite nth_map_lt with (da := (0, false)) by (rewrite combine_length; lia). rewrite combine_nth by lia. cbn [fst snd].
    destruct (nth i m false); unfold b2r; ring.
  - rewrite !nth_overflow by (rewrite ?map_length, ?combine_length; lia). auto.
Qed.
Lemma mt_len : length (t_z t) = n.
Proof. unfold t, mask_track. cbn [t_z]. rewrite map_length, combine_length. lia. Qed.
Lemma mt_plen : length (t_par t) = n.
Proof. unfold t, mask_track. cbn [t_par]. rewrite map_length, combine_length. lia. Qed.
Lemma mt_m i : nth i (t_mask t) 0 = b2r (nth i m false).
Proof.
  unfold t, mask_track. cbn [t_mask]. destruct (Nat.lt_ge_cases i n).
  - rewrite nth_map_lt with (da := false) by lia. auto.
  - rewrite !nth_overflow by (rewrite ?map_length; lia). auto.
Qed.
Lemma mt_vb i : vb t i = nth i m false.
Proof. unfold vb. rewrite mt_m. unfold b2r. destruct (nth i m false); Rbool; auto; lra. Qed.
Lemma mt_wf : (0 < n)%nat -> wf_track t.
Proof.
  intros Hn. constructor.
  - rewrite mt_plen, mt_len; auto.
  - rewrite mt_len. unfold t, mask_track. cbn. rewrite map_length. auto.
  - rewrite mt_len; auto.
  - intros i. rewrite mt_m. unfold b2r. destruct (nth i m false); auto.
  - intros i Hi. rewrite mt_m in Hi. rewrite mt_z, mt_p. destruct (nth i m false); auto. unfold b2r in Hi. lra.
Qed.
Lemma mt_break i : nth i m false = true -> nth (i - 1) m false = true -> brkb t i = true <-> track_break z par i.
Proof. intros H1 H2. rewrite brkb_true. unfold track_break. rewrite !mt_z, !mt_p, H1, H2. tauto. Qed.

Lemma mt_run a b : trun t a b <-> is_run z par m a b.
Proof.
  assert (B : forall i, nth i m false = true -> nth (i - 1) m false = true -> brkb t i = false <-> ~ track_break z par i).
  { intros i H1 H2. rewrite <- (mt_break i H1 H2). destruct (brkb t i); intuition congruence. }
  unfold trun, is_run. split; intros (A1 & A2 & A3 & A4 & A5).
  - assert (A2' : forall i, (a <= i <= b)%nat -> nth i m false = true) by (intros; rewrite <- mt_vb; auto).
    split; auto. split; auto. split; [|split].
    + intros i Hi. apply B; auto; apply A2'; lia.
    + unfold stb in A4. rewrite !mt_vb in A4. rewrite A2' in A4 by lia. simpl in A4.
      destruct (Nat.eqb_spec a 0); auto. simpl in A4. destruct (nth (a - 1) m false) eqn:E; auto. right; right.
      apply mt_break; auto; apply A2'; lia.
    + rewrite enb_S, !mt_vb in A5. rewrite A2' in A5 by lia. simpl in A5. destruct (nth (S b) m false) eqn:E; auto. right.
      simpl in A5. apply mt_break; auto. replace (S b - 1)%nat with b by lia. apply A2'; lia.
  - split; auto. split; [intros; rewrite mt_vb; auto|]. split; [|split].
    + intros i Hi. apply B; [apply A2; lia|apply A2; lia|apply A3; lia].
    + unfold stb. rewrite !mt_vb, A2 by lia. simpl. destruct (Nat.eqb_spec a 0); auto. simpl.
      destruct (nth (a - 1) m false) eqn:E; auto. destruct A4 as [?|[?|A4]]; [lia|congruence|]. simpl.
      apply mt_break; auto; apply A2; lia.
    + rewrite enb_S, !mt_vb, A2 by lia. simpl. destruct (nth (S b) m false) eqn:E; auto. destruct A5 as [A5|A5]; [congruence|].
      simpl. apply mt_break; auto. replace (S b - 1)%nat with b by lia. apply A2; lia.
Qed.

Lemma mt_closed : (0 < n)%nat -> is_closed t = true <-> full_circle z m.
Proof.
  intros Hn. unfold is_closed, full_circle. rewrite andb_true_iff, Rltb_true, forallb_forall.
  assert (M : (forall x, In x (t_mask t) -> nonzero x = true) <-> (forall b, In b m -> b = true)).
  { unfold t, mask_track. cbn. split.
    - intros H b Hb. specialize (H (b2r b) (in_map _ _ _ Hb)). destruct b; auto. unfold b2r in H. apply nonzero_true in H. lra.
    - intros H x Hx. apply in_map_iff in Hx as (b & <- & Hb). rewrite (H b Hb). apply nonzero_true. unfold b2r. lra. }
  assert (Nt : (forall b, In b m -> b = true) -> forall i, (i < n)%nat -> nth i m false = true) by (intros H i Hi; apply H, nth_In; lia).
  assert (Zh : hd (RtoC 0) z = nth 0 z (RtoC 0)) by (destruct z; auto).
  assert (Zl : last z (RtoC 0) = nth (n - 1) z (RtoC 0)).
  { clear - Lz Hn. destruct (@exists_last _ z) as (z' & q & ->). { destruct z; simpl in *; [lia|congruence]. }
    rewrite last_last. rewrite app_length in Lz. simpl in Lz. rewrite app_nth2 by lia. replace (n - 1 - length z')%nat with 0%nat by lia. auto. }
  rewrite mt_len, !mt_z, Zh, Zl.
  split; intros [H1 H2]; split; try (apply M; auto; fail).
  - assert (Hm := proj1 M H2). rewrite !(Nt Hm) in H1 by lia. auto.
  - rewrite !(Nt H1) by lia. auto.
Qed.

Lemma mt_closed_id : (forall b, In b m -> b = true) -> t_z t = z /\ t_par t = par.
Proof.
  intros H. split.
  - apply (list_eq_nth (RtoC 0)). { rewrite mt_len; auto. } intros i Hi. rewrite mt_len in Hi. rewrite mt_z, (H (nth i m false)); auto. apply nth_In; lia.
  - apply (list_eq_nth 0). { rewrite mt_plen; auto. } intros i Hi. rewrite mt_plen in Hi. rewrite mt_p, (H (nth i m false)); auto. apply nth_In; lia.
Qed.

Lemma mt_stretch a b : (forall i, (a <= i <= b)%nat -> nth i m false = true) -> (a < b)%nat ->
  long_run t (a, b) = Some (stretch z par (a, b)).
Proof.
  intros H Hab. unfold long_run, stretch. cbn [fst snd]. rewrite (proj2 (Nat.ltb_lt a b) Hab). apply (f_equal Some), (f_equal2 pair).
  - apply map_ext_in. intros i Hi. apply in_seq in Hi. rewrite mt_z, H by lia. auto.
  - apply map_ext_in. intros i Hi. apply in_seq in Hi. rewrite mt_p, H by lia. auto.
Qed.
End Rows.

Lemma null_vb t i : vb (null_track false t) i = false.
Proof.
  unfold vb, null_track. cbn [t_mask]. destruct (Nat.lt_ge_cases i (length (t_mask t))).
  - rewrite nth_map_lt with (da := 0) by auto. Rbool; auto; lra.
  - rewrite nth_overflow by (rewrite map_length; auto). Rbool; auto; lra.
Qed.
Lemma null_pieces t : n_pieces_b (null_track false t) = 0%nat.
Proof.
  destruct (n_pieces_b (null_track false t)) eqn:E; auto. exfalso.
  destruct (slot_onto (null_track false t) 0 ltac:(lia)) as (i & _ & H & _). apply stb_vb in H. rewrite null_vb in H. discriminate.
Qed.
Lemma map_zero_nth {A B} (f : A -> B) (c : B) l i : (forall x, f x = c) -> nth i (map f l) c = c.
Proof. intros H. revert i. induction l; intros [|i]; simpl; auto. Qed.
Lemma null_wf t : wf_track t -> wf_track (null_track false t).
Proof.
  intros [A B D _ _]. constructor; cbn [null_track t_z t_par t_mask]; rewrite ?map_length; auto;
  intros i; rewrite ?(map_zero_nth (fun _ => 0)), ?(map_zero_nth (fun _ => RtoC 0)); auto.
Qed.

Lemma stretch_length z par ab : length (fst (stretch z par ab)) = S (snd ab - fst ab) /\ length (snd (stretch z par ab)) = S (snd ab - fst ab).
Proof. unfold stretch. cbn [fst snd]. rewrite !map_length, seq_length. auto. Qed.

(** a long run of good samples is an image curve *)
Lemma run_curve z par m a b : is_run z par m a b -> (a < b)%nat ->
  (forall i, nth i m false = true -> 1e-5 <= Cmod (nth i z (RtoC 0)) /\ (nth i par 0 = 1 \/ nth i par 0 = -1)) ->
  image_curve gmax (stretch z par (a, b)).
Proof.
  intros (A1 & A2 & A3 & _ & _) Hab Hg.
  assert (Ns : forall i, (i < S (b - a))%nat -> nth i (seq a (S (b - a))) 0%nat = (a + i)%nat) by (intros; apply seq_nth; auto).
  constructor.
  - rewrite (proj1 (stretch_length _ _ _)). cbn [fst snd]. lia.
  - intros q Hq. unfold stretch in Hq. cbn [fst snd] in Hq. apply in_map_iff in Hq as (i & <- & Hi). apply in_seq in Hi. apply Hg, A2. lia.
  - exists (nth a par 0). split; [apply Hg, A2; lia|]. rewrite (proj1 (stretch_length _ _ _)). unfold stretch. cbn [fst snd].
    apply (list_eq_nth 0). { rewrite map_length, seq_length, repeat_length; auto. }
    intros i Hi. rewrite map_length, seq_length in Hi. rewrite nth_map_lt with (da := 0%nat) by (rewrite seq_length; auto).
    rewrite Ns by auto. rewrite (nth_indep (repeat _ _) 0 (nth a par 0)) by (rewrite repeat_length; auto). rewrite nth_repeat.
    clear Ns. induction i as [|i IH]; [rewrite Nat.add_0_r; auto|]. rewrite <- IH by lia.
    destruct (Req_dec (nth (a + S i) par 0) (nth (a + i) par 0)) as [E|E]; auto. exfalso.
    apply (A3 (a + S i)%nat); [lia|]. right. replace (a + S i - 1)%nat with (a + i)%nat by lia. auto.
  - intros i Hi. rewrite (proj1 (stretch_length _ _ _)) in Hi. cbn [fst snd] in Hi. unfold stretch. cbn [fst snd].
    rewrite nth_map_lt with (da := 0%nat) by (rewrite seq_length; lia). rewrite (nth_map_lt _ _ i 0%nat) by (rewrite seq_length; lia).
    rewrite !Ns by lia.
    assert (~ 0.1 < Cmod (nth (a + S i) z (RtoC 0) - nth (a + i) z (RtoC 0))%C).
    { intros F. apply (A3 (a + S i)%nat); [lia|]. left. replace (a + S i - 1)%nat with (a + i)%nat by lia. auto. }
    unfold gmax. lra.
Qed.

Lemma row_map {A} (d : A) (f : lsample -> list A) (l : list lsample) i : row d (map f l) i = map (fun s => nth i (f s) d) l.
Proof. unfold row. rewrite map_map. auto. Qed.

Lemma flat_map_pointwise {A B} (f g : A -> list B) l : (forall x, In x l -> Permutation (f x) (g x)) -> Permutation (flat_map f l) (flat_map g l).
Proof. induction l as [|x l IH]; intros H; simpl; auto. apply Permutation_app; [apply H; simpl; auto|apply IH; intros; apply H; simpl; auto]. Qed.
Lemma flat_map_nil {A B} (f : A -> list B) l : (forall x, In x l -> f x = []) -> flat_map f l = [].
Proof. induction l as [|x l IH]; intros H; simpl; auto. rewrite H, IH; simpl; auto. intros; apply H; simpl; auto. Qed.
Lemma in_somes {A} (l : list (option A)) x : In (Some x) l <-> In x (somes l).
Proof.
  induction l as [|[y|] l IH]; simpl; [tauto| |].
  - split; [intros [H|H]; [inversion H; auto|right; apply IH; auto]|intros [->|H]; auto; right; apply IH; auto].
  - rewrite <- IH. split; [intros [H|H]; [discriminate|auto]|auto].
Qed.
Lemma npts_perm l m : Permutation l m -> npts l = npts m.
Proof.
  unfold npts. induction 1; simpl; auto; rewrite ?app_length in *; lia.
Qed.
Lemma npts_app l m : npts (l ++ m) = (npts l + npts m)%nat.
Proof. unfold npts. rewrite map_app, concat_app, app_length. auto. Qed.
Lemma npts_in (u : list (piece * bool)) us : In u us -> (npts (map fst u) <= npts (map fst (concat us)))%nat.
Proof.
  induction us as [|v us IH]; simpl; [tauto|]. rewrite map_app, npts_app. intros [->|H]; [lia|]. specialize (IH H). lia.
Qed.
Lemma in_assemble u q : In q (fst (assemble u)) -> exists p, In p (map fst u) /\ In q (fst p).
Proof.
  unfold assemble. cbn [fst]. intros H. apply in_concat in H as (x & Hx & Hq). apply in_map_iff in Hx as ([p b] & <- & Hp).
  exists p. split; [apply in_map_iff; exists (p, b); auto|]. unfold orient in Hq. cbn [fst snd] in Hq. destruct b; auto.
  unfold flip in Hq. cbn [fst] in Hq. apply in_rev in Hq. auto.
Qed.
Lemma sumR_zero {A} (f : A -> R) l : (forall x, In x l -> f x = 0) -> sumR (map f l) = 0.
Proof. induction l as [|x l IH]; intros H; simpl; auto. rewrite H, IH; simpl; auto; [lra|]. intros; apply H; simpl; auto. Qed.
Lemma last_in {A} (l : list A) d : l <> [] -> In (last l d) l.
Proof. intros H. destruct (exists_last H) as (l' & q & ->). rewrite last_last. apply in_or_app. simpl; auto. Qed.

Lemma somes_runs z m par n L : length z = n -> length m = n -> length par = n ->
  (forall a b, In (a, b) L -> is_run z par m a b) ->
  somes (map (long_run (mask_track z m par)) L) = map (stretch z par) (filter (fun ab => (fst ab <? snd ab)%nat) L).
Proof.
  intros L1 L2 L3. induction L as [|[a b] L IH]; intros H; auto. cbn [map filter fst snd].
  destruct (Nat.ltb_spec a b) as [Hab|Hab].
  - rewrite (mt_stretch z m par n L1 L2 L3 a b); auto. 2:{ apply (H a b); simpl; auto. }
    cbn [somes map]. f_equal. apply IH. intros; apply H; simpl; auto.
  - unfold long_run at 1. cbn [fst snd]. destruct (Nat.ltb_spec a b); [lia|]. cbn [somes]. apply IH. intros; apply H; simpl; auto.
Qed.

Theorem contour_total (l : list lsample) nb nlenses rho (closeds opens : list nat) (runs : nat -> list (nat * nat)) :
  let Z := row (RtoC 0) (map s_z l) in let M := row false (map s_mask l) in let P := row 0 (map s_par l) in
  l <> [] -> List.Forall (fun s => length (s_z s) = nb /\ length (s_mask s) = nb /\ length (s_par s) = nb) l ->
  Permutation (closeds ++ opens) (seq 0 nb) ->
  (forall i, In i closeds -> full_circle (Z i) (M i)) -> (forall i, In i opens -> ~ full_circle (Z i) (M i)) ->
  (forall i, In i opens -> NoDup (runs i) /\ (forall a b, In (a, b) (runs i) <-> is_run (Z i) (P i) (M i) a b) /\
     (length (runs i) <= 10)%nat) ->
  (forall i j, In i opens -> nth j (M i) false = true ->
     1e-5 <= Cmod (nth j (Z i) (RtoC 0)) /\ Re (nth j (Z i) (RtoC 0)) <> 0 /\ (nth j (P i) 0 = 1 \/ nth j (P i) 0 = -1)) ->
  let pieces := flat_map (fun i => map (stretch (Z i) (P i)) (filter (fun ab => (fst ab <? snd ab)%nat) (runs i))) opens in
  (length pieces <= 3 * (nlenses ^ 2 + 1))%nat -> (length (concat (map fst pieces)) < 4 * length l)%nat ->
  exists us unused, Permutation (map fst (concat us) ++ unused) pieces /\ length us = 3%nat /\
    (forall u, In u us -> u <> [] -> image_curve (0.1 + 2e-5) (assemble u)) /\
    total_n23 integrate_unif nlenses l rho =
      Rabs (sumR (map (fun i => enclosed (Z i) * nth 0 (P i) 0) closeds) +
            sumR (map (fun u => enclosed (fst (assemble u)) * nth 0 (snd (assemble u)) 0) us)) / (PI * rho ^ 2).
Proof.
  intros Z M P Hne HF HP Hcl Hop Hru Hgood pieces Hlen Hpts.
  set (n := length l) in *. assert (Hn : (0 < n)%nat) by (unfold n; destruct l; simpl; [congruence|lia]).
  assert (Lz : forall i, length (Z i) = n) by (intros; unfold Z; rewrite row_map, map_length; auto).
  assert (Lm : forall i, length (M i) = n) by (intros; unfold M; rewrite row_map, map_length; auto).
  assert (Lp : forall i, length (P i) = n) by (intros; unfold P; rewrite row_map, map_length; auto).
  set (T := fun i => mask_track (Z i) (M i) (P i)).
  assert (Ec : forall i, is_closed (T i) = true <-> full_circle (Z i) (M i)) by (intros; apply (mt_closed (Z i) (M i) (P i) n); auto).
  assert (Ni : n_images l = nb). { unfold n_images. destruct l as [|s t]; [congruence|]. inversion HF as [|? ? [A _] _]; auto. }
  assert (Ets : map (fun i => mask_track (z_row l i) (mask_row l i) (par_row l i)) (seq 0 (n_images l)) = map T (seq 0 nb)).
  { rewrite Ni. apply map_ext. intros i. unfold T, Z, M, P. rewrite !row_map. auto. }
  assert (Inb : forall i, In i closeds \/ In i opens <-> (i < nb)%nat).
  { intros i. rewrite <- in_app_iff. split; intros H.
    - apply (Permutation_in _ HP) in H. apply in_seq in H. lia.
    - apply (Permutation_in _ (Permutation_sym HP)). apply in_seq. lia. }
  assert (Ccl : forall i, In i closeds -> is_closed (T i) = true) by (intros; apply Ec; auto).
  assert (Cop : forall i, In i opens -> is_closed (T i) = false).
  { intros i Hi. apply not_true_is_false. rewrite Ec. auto. }
  (* the closed part *)
  assert (S1 : sumR (map (fun s => let c := contour_of_closed s in integrate_unif (fst c) (length (fst c) - 1)%nat * snd c)
       (map seg_of_track (map (fun t => null_track (is_closed t) t) (map T (seq 0 nb))))) =
       sumR (map (fun i => enclosed (Z i) * nth 0 (P i) 0) closeds)).
  { rewrite !map_map.
    rewrite <- (sumR_perm _ _ (Permutation_map _ HP)). rewrite map_app, sumR_app.
    rewrite (sumR_zero _ opens), Rplus_0_r.
    - f_equal. apply map_ext_in. intros i Hi. rewrite (Ccl i Hi). unfold null_track, seg_of_track.
      destruct (mt_closed_id (Z i) (M i) (P i) n (Lz i) (Lm i) (Lp i)) as [E1 E2]; [apply Hcl; auto|].
      fold (T i) in E1, E2. rewrite E1, E2. cbv zeta. rewrite closed_contour_area.
      2:{ intros E. specialize (Lz i). rewrite E in Lz. simpl in Lz. lia. }
      unfold contour_of_closed. cbn [fst snd]. f_equal. unfold enclosed. specialize (Lz i). destruct (Z i); simpl in Lz; [lia|auto].
    - intros i Hi. rewrite (Cop i Hi). unfold seg_of_track, contour_of_closed. cbv zeta. cbn [fst snd null_track t_par].
      rewrite (map_zero_nth (fun _ => 0)); auto. lra. }
  cbv zeta in S1. unfold total_n23. rewrite Ets. unfold get_segments.
  destruct (forallb is_closed (map T (seq 0 nb))) eqn:Eall.
  - (* everything closed *)
    assert (opens = []).
    { destruct opens as [|i o]; auto. exfalso. rewrite forallb_forall in Eall.
      assert (is_closed (T i) = true). { apply Eall, in_map, in_seq. assert (i < nb)%nat by (apply Inb; simpl; auto). lia. }
      rewrite (Cop i) in H by (simpl; auto). discriminate. }
    exists [[]; []; []], []. split; [unfold pieces; subst opens; simpl; auto|]. split; auto. split.
    + intros u Hu Hn0. exfalso. simpl in Hu. apply Hn0. intuition.
    + unfold mag_ext_n23. cbv zeta. rewrite S1. f_equal. f_equal. simpl. lra.
  - (* some open *)
    set (opened := map (fun t => null_track (negb (is_closed t)) t) (map T (seq 0 nb))).
    assert (Eo : forall i, (i < nb)%nat -> nth i opened empty_track = null_track (negb (is_closed (T i))) (T i)).
    { intros i Hi. unfold opened. rewrite nth_map_lt with (da := T 0%nat) by (rewrite map_length, seq_length; auto).
      rewrite nth_map_lt with (da := 0%nat) by (rewrite seq_length; auto). rewrite seq_nth by auto. auto. }
    assert (Lo : length opened = nb) by (unfold opened; rewrite !map_length, seq_length; auto).
    assert (Wf : forall i, wf_track (T i)) by (intros; apply (mt_wf (Z i) (M i) (P i) n); auto).
    assert (Gt : forall t, In t opened -> good_track n 5 t).
    { intros t Ht. unfold opened in Ht. rewrite map_map in Ht. apply in_map_iff in Ht as (i & <- & Hi). apply in_seq in Hi.
      destruct (proj2 (Inb i) ltac:(lia)) as [Hc|Ho].
      - rewrite (Ccl i Hc). cbn [negb]. split; [apply null_wf; auto|]. split.
        { cbn [null_track t_z]. rewrite map_length. apply (mt_len (Z i) (M i) (P i) n); auto. }
        split; [rewrite null_pieces; lia|]. intros j Hj. rewrite null_vb in Hj. discriminate.
      - rewrite (Cop i Ho). cbn [negb null_track]. split; auto. split; [apply (mt_len (Z i) (M i) (P i) n); auto|]. split.
        + destruct (runs_list (T i) (Wf i)) as (RL & R1 & R2 & R3 & _). rewrite <- R1.
          destruct (Hru i Ho) as (A & B & D). etransitivity; [|exact D].
          apply Permutation_length, Nat.eq_le_incl in A || apply NoDup_incl_length; auto.
          intros [a b] Hab. apply B. apply R3 in Hab. apply (mt_run (Z i) (M i) (P i) n) in Hab; auto.
        + intros j Hj. unfold T in Hj. rewrite (mt_vb (Z i) (M i) (P i) n) in Hj by auto.
          unfold T. rewrite (mt_z (Z i) (M i) (P i) n) by auto. rewrite Hj. intros E0. destruct (Hgood i j Ho Hj) as (A & _). rewrite E0, Cmod_0 in A. lra. }
    destruct (process_correct n opened (3 * (nlenses ^ 2 + 1)) Gt) as (runs' & (R1 & R2) & Hproc).
    assert (Plr : Permutation (long_runs opened runs') pieces).
    { set (h := fun i => somes (map (long_run (nth i opened empty_track)) (nth i runs' []))).
      assert (E1 : long_runs opened runs' = flat_map h (seq 0 nb)).
      { unfold long_runs. rewrite flat_map_concat_map. f_equal. apply (list_eq_nth []).
        { rewrite !map_length, combine_length, seq_length. lia. }
        intros i Hi. rewrite map_length, combine_length in Hi. rewrite nth_map_lt with (da := (empty_track, [])) by (rewrite combine_length; lia).
        rewrite combine_nth by lia. rewrite nth_map_lt with (da := 0%nat) by (rewrite seq_length; lia). rewrite seq_nth by lia. auto. }
      rewrite E1. rewrite <- (Permutation_flat_map h HP). rewrite flat_map_app.
      rewrite (flat_map_nil h closeds).
      - unfold pieces. apply flat_map_pointwise. intros i Hi. assert (Hib : (i < nb)%nat) by (apply Inb; auto).
        unfold h. rewrite (Eo i Hib), (Cop i Hi). cbn [negb null_track].
        destruct (R2 i ltac:(lia)) as [N1 N2]. rewrite (Eo i Hib), (Cop i Hi) in N2. cbn [negb null_track] in N2.
        destruct (Hru i Hi) as (A & B & D).
        rewrite (somes_runs (Z i) (M i) (P i) n); auto.
        + apply Permutation_map. 
          assert (Pr : Permutation (nth i runs' []) (runs i)).
          { apply NoDup_Permutation; auto. intros [a b]. rewrite N2, B. apply (mt_run (Z i) (M i) (P i) n); auto. }
          clear - Pr. induction Pr as [|x u v Q IH|x y u|u v w Q1 IH1 Q2 IH2]; simpl; auto.
          * destruct (fst x <? snd x)%nat; auto.
          * destruct (fst x <? snd x)%nat, (fst y <? snd y)%nat; auto. apply perm_swap.
          * etransitivity; eauto.
        + intros a b Hab. apply N2 in Hab. apply (mt_run (Z i) (M i) (P i) n) in Hab; auto.
      - intros i Hi. assert (Hib : (i < nb)%nat) by (apply Inb; auto).
        destruct (R2 i ltac:(lia)) as [_ N2]. rewrite (Eo i Hib), (Ccl i Hi) in N2. cbn [negb] in N2.
        unfold h. destruct (nth i runs' []) as [|[a b] r]; auto. exfalso.
        destruct (proj1 (N2 a b) ltac:(simpl; auto)) as (A1 & A2 & _). specialize (A2 a ltac:(lia)). rewrite null_vb in A2. discriminate. }
    destruct Hproc as (opts & O1 & O2 & O3). { rewrite (Permutation_length Plr). auto. }
    fold opened. rewrite O3.
    assert (Pop : Permutation (somes opts) pieces) by (etransitivity; eauto).
    assert (Hpiece : forall p, In p pieces -> image_curve gmax p /\ (length (fst p) <= n)%nat /\
       forall q, In q (fst p) -> Re q <> 0).
    { intros p Hp. unfold pieces in Hp. apply in_flat_map in Hp as (i & Hi & Hp). apply in_map_iff in Hp as ([a b] & <- & Hab).
      apply filter_In in Hab as [Hab Hlt]. cbn [fst snd] in Hlt. apply Nat.ltb_lt in Hlt.
      destruct (Hru i Hi) as (_ & B & _). apply B in Hab. pose proof Hab as (A1 & A2 & _).
      assert (Hb : (b < n)%nat). { destruct (Nat.lt_ge_cases b n); auto. specialize (A2 b ltac:(lia)). rewrite nth_overflow in A2; [discriminate|rewrite Lm; lia]. }
      split; [|split].
      - apply run_curve with (m := M i); auto. intros j Hj. destruct (Hgood i j Hi Hj) as (G1 & _ & G3). auto.
      - rewrite (proj1 (stretch_length _ _ _)). cbn [fst snd]. lia.
      - intros q Hq. unfold stretch in Hq. cbn [fst snd] in Hq. apply in_map_iff in Hq as (j & <- & Hj). apply in_seq in Hj.
        apply (Hgood i j Hi). apply A2. lia. }
    assert (Nnb : (1 <= nb)%nat). { destruct nb; [|lia]. simpl in Eall. discriminate. }
    destruct (merge_open_correct n opts 3 20) as (us & left & U1 & U2 & U3 & U4 & _).
    { intros p Hp. apply in_somes in Hp. apply (Permutation_in _ Pop) in Hp. destruct (Hpiece p Hp) as (A & B & D). split; auto. split; auto.
      apply D. apply last_in. destruct A as [A _ _ _]. destruct (fst p); simpl in A; [lia|congruence]. }
    { rewrite (npts_perm _ _ Pop). unfold npts. lia. }
    { rewrite O1, Lo. simpl. lia. }
    exists us, (somes left). split; [rewrite U3; auto|]. split; auto. split; [exact U4|].
    unfold mag_ext_n23. cbv zeta. rewrite U1. cbn [fst]. rewrite S1. f_equal. f_equal. f_equal.
    rewrite map_map. f_equal. apply map_ext_in. intros u Hu. destruct u as [|pb u'].
    + unfold act, rep. rewrite pseg_nil. unfold contour_of_open. cbn [fst snd]. rewrite nth_repeat. simpl. lra.
    + set (u := pb :: u') in *. assert (Hne0 : u <> []) by (unfold u; congruence). pose proof (U4 u Hu Hne0) as Ic.
      replace (act u) with (Some (assemble u)) by reflexivity. unfold rep, pseg, contour_of_open. cbn [fst snd].
      assert (Hne1 : fst (assemble u) <> []). { destruct Ic as [A _ _ _]. intros E. rewrite E in A. simpl in A. lia. }
      assert (Hre : forall q, In q (fst (assemble u)) -> Re q <> 0).
      { intros q Hq. apply in_assemble in Hq as (p & Hp & Hq). apply (Hpiece p); auto. apply (Permutation_in _ Pop).
        apply (Permutation_in _ U3). apply in_or_app. left. apply in_map_iff in Hp as (x & <- & Hx). apply in_map.
        apply in_concat. exists u. auto. }
      rewrite open_contour_area; auto.
      * rewrite nth_packed. f_equal. unfold enclosed. destruct (fst (assemble u)); [congruence|auto].
      * rewrite assemble_length. pose proof (npts_in u us Hu). apply npts_perm in U3. rewrite npts_app in U3.
        pose proof (npts_perm _ _ Pop). unfold npts in *. lia.
      * apply Hre, last_in; auto.
      * apply Hre. destruct (fst (assemble u)); [congruence|simpl; auto].
Qed.

Lemma runs_exist z par m n : length z = n -> length par = n -> length m = n -> (0 < n)%nat ->
  exists L, NoDup L /\ forall a b, In (a, b) L <-> is_run z par m a b.
Proof.
  intros Lz Lp Lm Hn. destruct (runs_list (mask_track z m par) (mt_wf z m par n Lz Lm Lp Hn)) as (L & _ & A & B & _).
  exists L. split; auto. intros a b. rewrite B. apply (mt_run z m par n); auto.
Qed.

Lemma no_crossing_total (l : list lsample) nb nlenses rho (closeds ghosts : list nat) :
  let Z := row (RtoC 0) (map s_z l) in let M := row false (map s_mask l) in let P := row 0 (map s_par l) in
  l <> [] -> List.Forall (fun s => length (s_z s) = nb /\ length (s_mask s) = nb /\ length (s_par s) = nb) l ->
  Permutation (closeds ++ ghosts) (seq 0 nb) ->
  (forall i, In i closeds -> full_circle (Z i) (M i)) -> (forall i b, In i ghosts -> In b (M i) -> b = false) ->
  total_n23 integrate_unif nlenses l rho =
    Rabs (sumR (map (fun i => enclosed (Z i) * nth 0 (P i) 0) closeds)) / (PI * rho ^ 2).
Proof.
  intros Z M P Hne HF HP Hcl Hgh.
  assert (Lm : forall i, length (M i) = length l) by (intros; unfold M; rewrite row_map, map_length; auto).
  assert (Gm : forall i j, In i ghosts -> nth j (M i) false = false).
  { intros i j Hi. destruct (Nat.lt_ge_cases j (length (M i))); [|apply nth_overflow; auto]. apply (Hgh i); auto. apply nth_In; auto. }
  assert (Hp0 : flat_map (fun i => map (stretch (Z i) (P i)) (filter (fun ab => (fst ab <? snd ab)%nat) [])) ghosts = [])
    by (apply flat_map_nil; auto).
  destruct (contour_total l nb nlenses rho closeds ghosts (fun _ => []) Hne HF HP Hcl) as (us & un & A & B & D & E).
  - intros i Hi [H _]. specialize (Gm i 0%nat Hi). assert (In (nth 0 (M i) false) (M i)).
    { apply nth_In. rewrite Lm. destruct l; simpl; [congruence|lia]. }
    apply H in H0. congruence.
  - intros i Hi. split; [constructor|]. split; [|simpl; lia]. intros a b. split; [intros []|].
    intros (A1 & A2 & _). specialize (A2 a ltac:(lia)). change (nth a (M i) false = true) in A2. rewrite (Gm i a Hi) in A2. discriminate.
  - intros i j Hi Hj. change (nth j (M i) false = true) in Hj. rewrite (Gm i j Hi) in Hj. discriminate.
  - fold Z P. rewrite Hp0. simpl. lia.
  - fold Z P. rewrite Hp0. simpl. destruct l; simpl; [congruence|lia].
  - fold Z P in A, E. rewrite Hp0 in A. rewrite E. f_equal. f_equal.
    rewrite (sumR_zero _ us); [lra|]. intros u Hu.
    apply Permutation_sym, Permutation_nil in A. apply app_eq_nil in A as [A _].
    destruct u as [|x u]; [simpl; lra|]. exfalso.
    assert (In (fst x) (map fst (concat us))) by (apply in_map, in_concat; exists (x :: u); simpl; auto).
    rewrite A in H. destruct H.
Qed.

(** the single-lens total *)
Lemma single_total (l : list lsample) nb rho :
  let Z := row (RtoC 0) (map s_z l) in let P := row 0 (map s_par l) in
  l <> [] -> List.Forall (fun s => length (s_z s) = nb) l -> (0 < nb)%nat ->
  total_n1 integrate_unif l rho = Rabs (sumR (map (fun i => shoelace (Z i) * nth 0 (P i) 0) (seq 0 nb))) / (PI * rho ^ 2).
Proof.
  intros Z P Hne HF Hnb. unfold total_n1, mag_ext_n1.
  assert (Ni : n_images l = nb). { unfold n_images. destruct l as [|s t]; [congruence|]. inversion HF; auto. }
  rewrite Ni.
  assert (Lz : forall i, length (Z i) = length l) by (intros; unfold Z; rewrite row_map, map_length; auto).
  assert (Npt : match map (fun i => (z_row l i, par_row l i)) (seq 0 nb) with s :: _ => length (fst s) | [] => 0%nat end = length l).
  { destruct nb; [lia|]. cbn [seq map fst]. unfold z_row. apply map_length. }
  unfold seg in *. cbv zeta. rewrite Npt. rewrite !map_map. f_equal. f_equal. f_equal. apply map_ext. intros i.
  replace (z_row l i) with (Z i) by (unfold Z; rewrite row_map; auto).
  replace (par_row l i) with (P i) by (unfold P; rewrite row_map; auto).
  unfold contour_of_closed at 2. cbn [snd]. f_equal. rewrite <- (Lz i). apply n1_contour_open.
  intros E0. specialize (Lz i). rewrite E0 in Lz. destruct l; simpl in Lz; [congruence|lia].
Qed.

(** the masses the three-lens branch works with *)
Lemma triple_shift a e1 e2 e2' p3 (z : C) : z <> RtoC (- a) -> z <> p3 ->
  Cmod (lens_map (triple_mid a e1 e2 p3) z - lens_map (triple_mid a e1 e2' p3) z)%C =
  Rabs (e2 - e2') * (Cmod (p3 + RtoC a)%C / (Cmod (z + RtoC a)%C * Cmod (z - p3)%C)).
Proof.
  intros H1 H2.
  assert (N1 : (z + RtoC a <> 0)%C).
  { intros E. apply H1. replace z with (z + RtoC a - RtoC a)%C by ring. rewrite E, RtoC_opp. ring. }
  assert (N2 : (z - p3 <> 0)%C). { intros E. apply H2. replace z with (z - p3 + p3)%C by ring. rewrite E. ring. }
  replace (Cmod (z + RtoC a)%C) with (Cmod (Cconj (z + RtoC a))) by apply Cmod_conj.
  replace (Cmod (z - p3)%C) with (Cmod (Cconj (z - p3))) by apply Cmod_conj.
  replace (Cmod (p3 + RtoC a)%C) with (Cmod (Cconj (p3 + RtoC a))) by apply Cmod_conj.
  assert (M1 : Cconj (z + RtoC a) <> RtoC 0) by (apply Cconj_neq0; auto).
  assert (M2 : Cconj (z - p3) <> RtoC 0) by (apply Cconj_neq0; auto).
  rewrite <- Cmod_mult, <- Cmod_R, <- Cmod_div by (apply Cmult_neq_0; auto). rewrite <- Cmod_mult. f_equal.
  unfold lens_map, triple_mid. cbn [deflection].
  replace (z - RtoC (- a))%C with (z + RtoC a)%C by (rewrite RtoC_opp; ring).
  replace (Cconj (p3 + RtoC a)) with (Cconj (z + RtoC a) - Cconj (z - p3))%C by (rewrite <- Cconj_minus; f_equal; ring).
  set (u := Cconj (z + RtoC a)) in *. set (v := Cconj (z - p3)) in *. set (t := (RtoC e1 / Cconj (z - RtoC a))%C).
  rewrite !RtoC_minus. field. auto.
Qed.

Lemma limb_shape step det w0 rho kick jitter nb npts niter l :
  (forall init w, length (fst (step init w)) = nb /\ length (snd (step init w)) = nb) ->
  (forall i j, Rabs (jitter i j) <= 1e-9) ->
  images_of_source_limb step det w0 rho kick jitter npts niter = Ok l ->
  l <> [] /\ List.Forall (fun s => length (s_z s) = nb /\ length (s_mask s) = nb /\ length (s_par s) = nb) l.
Proof.
  intros Hs Hj H. split.
  - pose proof (final_thetas step det w0 rho kick jitter nb Hs npts niter l H) as E.
    apply (limb_ok step det w0 rho kick jitter) in H as (Hn & _ & _). pose proof (g_ne _ _ _ _ _ (refined_all step det w0 rho kick npts niter Hn)) as N.
    intros ->. apply N. simpl in E. destruct (refine_times _ _ _ _ _ _ _ _); [auto|discriminate].
  - destruct (limb_columns step det w0 rho kick jitter nb Hs npts niter l Hj H) as (raw & _ & Hc).
    apply forall_nth_s. intros j Hjl. destruct (Hc j Hjl) as (p & ms & ps & Pp & _ & E1 & E2 & E3 & _).
    apply Permutation_length in Pp. rewrite seq_length in Pp. rewrite E1, E2, !map_length. auto.
Qed.

Lemma fit_total l nb nlenses rho closeds opens runs :
  l <> [] -> List.Forall (fun s => length (s_z s) = nb /\ length (s_mask s) = nb /\ length (s_par s) = nb) l ->
  contours_fit (row (RtoC 0) (map s_z l)) (row false (map s_mask l)) (row 0 (map s_par l)) nb (3 * (nlenses ^ 2 + 1)) (4 * length l) closeds opens runs ->
  contour_magnification (row (RtoC 0) (map s_z l)) (row 0 (map s_par l)) closeds opens runs rho (total_n23 integrate_unif nlenses l rho).
Proof.
  intros Hne HF [A B D E F G H]. exact (contour_total l nb nlenses rho closeds opens runs Hne HF A B D E F G H).
Qed.

Section Api.
Variables (poly_roots : list C -> option (list C) -> list C) (kick : nat -> nat -> C) (jitter : nat -> nat -> R) (gl1 gl2 : list (R * R)).
Notation ext := (mag_extended_source poly_roots kick jitter gl1 gl2).

Lemma images2_len nb a e1 w init : (forall cs i, length (poly_roots cs i) = nb) ->
  length (fst (images2 poly_roots a e1 w init)) = nb /\ length (snd (images2 poly_roots a e1 w init)) = nb.
Proof. intros H. unfold images2. cbn [fst snd]. rewrite map_length. auto. Qed.
Lemma images3_len nb a r3 psi e1 e2 w : (forall cs i, length (poly_roots cs i) = nb) ->
  length (fst (images3 poly_roots a r3 psi e1 e2 w)) = nb /\ length (snd (images3 poly_roots a r3 psi e1 e2 w)) = nb.
Proof. intros H. unfold images3. destruct (poly_coeffs_triple_CM _ _ _ _ _) as [cs sh]. cbn [fst snd]. rewrite !map_length. auto. Qed.

Lemma ext_binary nb npts u1 p w0 rho s q l closeds opens runs :
  (forall cs i, length (poly_roots cs i) = nb) -> (forall i j, Rabs (jitter i j) <= 1e-9) ->
  p_s p = Some s -> p_q p = Some q ->
  let a := s / 2 in let e1 := q / (1 + q) in
  images_of_source_limb (fun init w => images2 poly_roots a e1 w init) (det_jac2 a e1) (w0 - RtoC (a * (1 - q) / (1 + q)))%C rho kick jitter npts 10 = Ok l ->
  contours_fit (row (RtoC 0) (map s_z l)) (row false (map s_mask l)) (row 0 (map s_par l)) nb 15 (4 * length l) closeds opens runs ->
  exists A, ext 2 npts false u1 p w0 rho = Ok A /\
    contour_magnification (row (RtoC 0) (map s_z l)) (row 0 (map s_par l)) closeds opens runs rho A.
Proof.
  intros Hr Hj Es Eq a e1 Hl Hfit.
  destruct (limb_shape _ _ _ _ _ _ nb _ _ _ (fun init w => images2_len nb a e1 w init Hr) Hj Hl) as [Hne HF].
  exists (total_n23 integrate_unif 2 l rho). split.
  - unfold mag_extended_source. cbn [Z.eqb Pos.eqb]. rewrite Es, Eq. cbn [getp]. unfold x_cm.
    replace (0.5 * s) with a by (unfold a; lra). fold e1. rewrite Hl. reflexivity.
  - apply (fit_total l nb 2); auto.
Qed.
Lemma ext_triple nb npts u1 p w0 rho s q q3 r3 psi l closeds opens runs :
  (forall cs i, length (poly_roots cs i) = nb) -> (forall i j, Rabs (jitter i j) <= 1e-9) ->
  p_s p = Some s -> p_q p = Some q -> p_q3 p = Some q3 -> p_r3 p = Some r3 -> p_psi p = Some psi ->
  let a := s / 2 in let e1 := q / (1 + q + q3) in let e2 := (1 - q3) / (1 + q + q3) in
  images_of_source_limb (fun _ w => images3 poly_roots a r3 psi e1 e2 w) (det_jac3 a r3 psi e1 e2) (w0 - RtoC (a * (1 - q) / (1 + q)))%C rho kick jitter npts 10 = Ok l ->
  contours_fit (row (RtoC 0) (map s_z l)) (row false (map s_mask l)) (row 0 (map s_par l)) nb 30 (4 * length l) closeds opens runs ->
  exists A, ext 3 npts false u1 p w0 rho = Ok A /\
    contour_magnification (row (RtoC 0) (map s_z l)) (row 0 (map s_par l)) closeds opens runs rho A.
Proof.
  intros Hr Hj Es Eq E3 Er Ep a e1 e2 Hl Hfit.
  destruct (limb_shape _ _ _ _ _ _ nb _ _ _ (fun init w => images3_len nb a r3 psi e1 e2 w Hr) Hj Hl) as [Hne HF].
  exists (total_n23 integrate_unif 3 l rho). split.
  - unfold mag_extended_source. cbn [Z.eqb Pos.eqb]. rewrite Es, Eq, E3, Er, Ep. cbn [getp]. unfold x_cm.
    replace (0.5 * s) with a by (unfold a; lra). fold e1 e2. rewrite Hl. reflexivity.
  - apply (fit_total l nb 3); auto.
Qed.

Lemma ext_single npts u1 p w0 rho l : (forall i j, Rabs (jitter i j) <= 1e-9) ->
  images_of_source_limb (fun _ w => images1 w) det_jac1 w0 rho kick jitter npts 10 = Ok l ->
  ext 1 npts false u1 p w0 rho =
    Ok (Rabs (shoelace (row (RtoC 0) (map s_z l) 0) * nth 0 (row 0 (map s_par l) 0) 0 +
              shoelace (row (RtoC 0) (map s_z l) 1) * nth 0 (row 0 (map s_par l) 1) 0) / (PI * rho ^ 2)).
Proof.
  intros Hj Hl. destruct (limb_shape (fun _ w => images1 w) _ _ _ _ _ 2 _ _ _ ltac:(auto) Hj Hl) as [Hne HF].
  unfold mag_extended_source. cbn [Z.eqb Pos.eqb]. rewrite Hl. unfold res_map. f_equal.
  change (integrator gl1 gl2 lens_eq1 false u1 w0 rho) with integrate_unif.
  rewrite (single_total l 2 rho Hne) by (try lia; apply List.Forall_impl with (2 := HF); tauto).
  cbn [seq map sumR fold_right]. f_equal. f_equal. lra.
Qed.

Lemma ext_errors npts ld u1 p w0 rho :
  (forall n, n <> 1%Z -> n <> 2%Z -> n <> 3%Z -> ext n npts ld u1 p w0 rho = Raise ValueError) /\
  (p_s p = None \/ p_q p = None -> ext 2 npts ld u1 p w0 rho = Raise KeyError) /\
  (p_s p = None \/ p_q p = None \/ p_q3 p = None \/ p_r3 p = None \/ p_psi p = None -> ext 3 npts ld u1 p w0 rho = Raise KeyError) /\
  ((npts < 2)%nat -> forall n A, ext n npts ld u1 p w0 rho <> Ok A).
Proof.
  split; [|split; [|split]].
  - intros n H1 H2 H3. unfold mag_extended_source. destruct (Z.eqb_spec n 1); [congruence|]. destruct (Z.eqb_spec n 2); [congruence|].
    destruct (Z.eqb_spec n 3); [congruence|auto].
  - intros H. unfold mag_extended_source. cbn [Z.eqb Pos.eqb]. unfold getp. destruct (p_s p), (p_q p); destruct H; try discriminate; auto.
  - intros H. unfold mag_extended_source. cbn [Z.eqb Pos.eqb]. unfold getp.
    destruct (p_s p), (p_q p), (p_q3 p), (p_r3 p), (p_psi p); auto; exfalso; intuition discriminate.
  - intros Hn n A. unfold mag_extended_source, images_of_source_limb, getp.
    assert (E : (npts / 2 =? 0)%nat = true) by (apply Nat.eqb_eq, Nat.div_small; auto). rewrite E.
    destruct (n =? 1)%Z; [discriminate|]. destruct (n =? 2)%Z; [destruct (p_s p), (p_q p); discriminate|].
    destruct (n =? 3)%Z; [destruct (p_s p), (p_q p), (p_q3 p), (p_r3 p), (p_psi p); discriminate|discriminate].
Qed.

(** the images found for the third lens do not belong to the masses 1 : q : q3 *)
Lemma triple_images_off s q q3 r3 psi w0 rho th zs ms ps k :
  let a := s / 2 in let T := 1 + q + q3 in let p3 := from_com r3 psi in
  solver_column (fun _ w => images3 poly_roots a r3 psi (q / T) ((1 - q3) / T) w) (det_jac3 a r3 psi (q / T) ((1 - q3) / T)) w0 rho th zs ms ps ->
  nth k ms false = true -> let z := nth k zs (RtoC 0) in z <> RtoC (- a) -> z <> p3 ->
  Rabs (q3 / T) * (Cmod (p3 + RtoC a)%C / (Cmod (z + RtoC a)%C * Cmod (z - p3)%C)) - 1e-3 <
  Cmod (lens_map (triple_mid a (q / T) (1 / T) p3) z - limb_at w0 rho th)%C.
Proof.
  intros a T p3 [[init Hc] _] Hk z Hz1 Hz2. unfold images3 in Hc. destruct (poly_coeffs_triple_CM _ _ _ _ _) as [cs sh] in Hc.
  apply pair_equal_spec in Hc as [Ez Em]. subst ms. rewrite Ez in Hk.
  assert (Hlt : (k < length zs)%nat). { destruct (Nat.lt_ge_cases k (length zs)); auto. rewrite nth_overflow in Hk by (rewrite map_length; auto). discriminate. }
  rewrite nth_map_lt with (da := RtoC 0) in Hk by auto. fold z in Hk. apply Rltb_true in Hk. rewrite lens_eq3_map in Hk.
  replace (third_lens r3 psi) with p3 in Hk.
  2:{ unfold p3, from_com, third_lens, cexpi. apply Ceq; simpl; ring. }
  pose proof (triple_shift a (q / T) (1 / T) ((1 - q3) / T) p3 z Hz1 Hz2) as Hs.
  replace (1 / T - (1 - q3) / T) with (q3 / T) in Hs by (unfold Rdiv; ring). rewrite <- Hs.
  set (d := lens_map (triple_mid a (q / T) (1 / T) p3) z) in *. set (u := lens_map _ z) in *. set (w := limb_at w0 rho th) in *.
  pose proof (Cmod_triangle (d - w)%C (- (u - w))%C) as Ht. rewrite Cmod_opp in Ht.
  replace (d - w + - (u - w))%C with (d - u)%C in Ht by ring. lra.
Qed.
End Api.

(** a worked case: one image goes around a square, a second one is real on two of the four samples *)
Definition case_limb : list lsample :=
  [Sample 0 [RtoC 1; RtoC 2] [true; true] [1; -1]; Sample 0 [(0, 1); RtoC 2.05] [true; true] [1; -1];
   Sample 0 [RtoC (-1); RtoC 0] [true; false] [1; 0]; Sample 0 [RtoC 1; RtoC 0] [true; false] [1; 0]].
Lemma case_fit : contours_fit (row (RtoC 0) (map s_z case_limb)) (row false (map s_mask case_limb)) (row 0 (map s_par case_limb))
  2 15 16 [0%nat] [1%nat] (fun _ => [(0, 1)%nat]).
Proof.
  constructor; cbn [case_limb map s_z s_mask s_par].
  - simpl. auto.
  - intros i [<-|[]]. split; [cbn; intros b; intuition|]. cbn [row map nth hd last]. replace (RtoC 1 - RtoC 1)%C with (RtoC 0) by ring. rewrite Cmod_0. lra.
  - intros i [<-|[]]. cbn. intros [H _]. specialize (H false ltac:(simpl; auto)). discriminate.
  - intros i [<-|[]]. cbn. split; [repeat constructor; simpl; tauto|]. split; [|lia].
    assert (Bk : ~ track_break [RtoC 2; RtoC 2.05; RtoC 0; RtoC 0] [-1; -1; 0; 0] 1).
    { intros [H|H]; cbn in H; [|lra]. replace (RtoC 2.05 - RtoC 2)%C with (RtoC 0.05) in H by (apply Ceq; simpl; lra).
      rewrite Cmod_R, Rabs_right in H; lra. }
    intros a b. split.
    + intros [E|[]]. injection E as <- <-. split; [lia|]. split; [|split; [|split]].
      * intros i Hi. destruct i as [|[|]]; auto; lia.
      * intros i Hi. replace i with 1%nat by lia. auto.
      * auto.
      * auto.
    + intros (H1 & H2 & H3 & H4 & H5). left.
      assert (Hb : (b < 2)%nat). { specialize (H2 b ltac:(lia)). destruct b as [|[|[|[|b]]]]; simpl in H2; try discriminate; try lia. destruct b; discriminate. }
      assert (a = 0%nat). { destruct a as [|[|]]; try lia. exfalso. destruct H4 as [H4|[H4|H4]]; [lia|simpl in H4; discriminate|auto]. }
      assert (b = 1%nat). { destruct b as [|[|]]; try lia. exfalso. destruct H5 as [H5|H5]; [simpl in H5; discriminate|auto]. }
      subst. auto.
  - intros i j [<-|[]] Hj. cbn in *. destruct j as [|[|[|[|j]]]]; simpl in Hj; try discriminate; [| |destruct j; discriminate];
    rewrite Cmod_R, Rabs_right by lra; simpl; repeat split; try lra; auto.
  - simpl. lia.
  - simpl. lia.
Qed.
Lemma case_total rho : contour_magnification (row (RtoC 0) (map s_z case_limb)) (row 0 (map s_par case_limb)) [0%nat] [1%nat] (fun _ => [(0, 1)%nat])
  rho (total_n23 integrate_unif 2 case_limb rho).
Proof.
  apply (fit_total case_limb 2 2); [discriminate| |exact case_fit]. repeat constructor.
Qed.
