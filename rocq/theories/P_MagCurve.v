(** Proofs: interpolation of the light curve. *)
From Coq Require Import Reals List Bool Arith ZArith Lia Lra.
From Coquelicot Require Import Coquelicot.
From Verif Require Import Base_R Base_C Base_List M_Fftlog M_MagFft M_MagCurve S_Fftlog S_MagCurve.
Import ListNotations.
Local Open Scope R_scope.

Definition lift (K : list (R * R)) : list (R * num) := map (fun p => (fst p, Some (snd p))) K.
(** increasing knots; equal positions carry equal values *)
Fixpoint wsorted (K : list (R * R)) : Prop :=
  match K with
  | p :: tl => match tl with q :: _ => (fst p < fst q \/ p = q) /\ wsorted tl | [] => True end
  | [] => True
  end.
Fixpoint polyline (K : list (R * R)) (x : R) : R :=
  match K with
  | [] => 0
  | p :: tl =>
      match tl with
      | [] => snd p
      | q :: _ => polyline tl x + (snd p - snd q) * ((fst q - Rmax (fst p) (Rmin x (fst q))) / (fst q - fst p))
      end
  end.
Lemma wsorted_tl p K : wsorted (p :: K) -> wsorted K. Proof. destruct K; simpl; tauto. Qed.
Lemma polyline_left p K x : wsorted (p :: K) -> x <= fst p -> polyline (p :: K) x = snd p.
Proof.
  revert p; induction K as [|q K IH]; intros p H Hx; [reflexivity|]. destruct H as [H H']. change (polyline (q :: K) x + (snd p - snd q) * ((fst q - Rmax (fst p) (Rmin x (fst q))) / (fst q - fst p)) = snd p).
  destruct H as [H| ->].
  - rewrite IH by (auto; lra). rewrite Rmin_left by lra. rewrite Rmax_left by lra. field. lra.
  - rewrite IH by auto. ring.
Qed.
Lemma polyline_cons p q K x : wsorted (p :: q :: K) -> fst p <= x <= fst q -> fst p < fst q -> polyline (p :: q :: K) x = chord (fst p) (snd p) (fst q) (snd q) x.
Proof.
  intros [H H'] Hx Hlt. change (polyline (p :: q :: K) x) with (polyline (q :: K) x + (snd p - snd q) * ((fst q - Rmax (fst p) (Rmin x (fst q))) / (fst q - fst p))).
  rewrite polyline_left by (auto; lra). rewrite Rmin_left by lra. rewrite Rmax_right by lra. unfold chord. field. lra.
Qed.
Lemma polyline_skip p q K x : wsorted (p :: q :: K) -> fst q <= x -> polyline (p :: q :: K) x = polyline (q :: K) x.
Proof.
  intros [H H'] Hx. change (polyline (p :: q :: K) x) with (polyline (q :: K) x + (snd p - snd q) * ((fst q - Rmax (fst p) (Rmin x (fst q))) / (fst q - fst p))).
  rewrite Rmin_right by lra. destruct H as [H| ->]; [rewrite Rmax_right by lra; field; lra|ring].
Qed.
Lemma polyline_chord K i x : wsorted K -> (S i < length K)%nat -> fst (nth i K (0, 0)) < fst (nth (S i) K (0, 0)) -> fst (nth i K (0, 0)) <= x <= fst (nth (S i) K (0, 0)) ->
  polyline K x = chord (fst (nth i K (0, 0))) (snd (nth i K (0, 0))) (fst (nth (S i) K (0, 0))) (snd (nth (S i) K (0, 0))) x.
Proof.
  revert i; induction K as [|p K IH]; intros i H Hi Hlt Hx; [simpl in Hi; lia|]. destruct K as [|q K]; [simpl in Hi; lia|]. destruct i as [|i].
  - apply polyline_cons; auto.
  - assert (Q : forall j, (j <= i)%nat -> fst q <= fst (nth j (q :: K) (0, 0))).
    { pose proof (wsorted_tl _ _ H) as H'. clear - H' Hi. intros j Hj. assert (Hl : (j < length (q :: K))%nat) by (simpl in Hi |- *; lia). clear Hi Hj. revert q H' j Hl. induction K as [|r K IHK]; intros q H' j Hl.
      - simpl in Hl. replace j with O by lia. simpl; lra.
      - destruct j as [|j]; [simpl; lra|]. destruct H' as [H1 H2]. specialize (IHK r H2 j ltac:(simpl in Hl |- *; lia)). change (nth (S j) (q :: r :: K) (0, 0)) with (nth j (r :: K) (0, 0)). destruct H1 as [H1| ->]; lra. }
    specialize (Q i (le_n i)). change (nth (S i) (p :: q :: K) (0, 0)) with (nth i (q :: K) (0, 0)) in *. change (nth (S (S i)) (p :: q :: K) (0, 0)) with (nth (S i) (q :: K) (0, 0)) in *.
    rewrite polyline_skip by (auto; lra). apply IH; auto; [exact (wsorted_tl _ _ H)|simpl in Hi |- *; lia].
Qed.
Lemma polyline_right K x d : K <> [] -> wsorted K -> fst (last K d) <= x -> polyline K x = snd (last K d).
Proof.
  induction K as [|p K IH]; intros Hne H Hx; [congruence|]. destruct K as [|q K]; [reflexivity|].
  assert (Q : fst q <= fst (last (q :: K) d)).
  { pose proof (wsorted_tl _ _ H) as H'. clear - H'. revert q H'. induction K as [|r K IHK]; intros q H'; [simpl; lra|]. destruct H' as [H1 H2]. specialize (IHK r H2). change (last (q :: r :: K) d) with (last (r :: K) d). destruct H1 as [H1| ->]; lra. }
  change (last (p :: q :: K) d) with (last (q :: K) d) in *. rewrite polyline_skip by (auto; lra). apply IH; [discriminate|exact (wsorted_tl _ _ H)|auto].
Qed.
Lemma polyline_cont K : forall x, continuous (polyline K) x.
Proof.
  induction K as [|p K IH]; intros x; [apply continuous_const|]. destruct K as [|q K]; [apply continuous_const|].
  apply (continuous_plus (polyline (q :: K)) (fun x => (snd p - snd q) * ((fst q - Rmax (fst p) (Rmin x (fst q))) / (fst q - fst p)))); auto.
  assert (Q : forall y, (snd p - snd q) * ((fst q - Rmax (fst p) (Rmin y (fst q))) / (fst q - fst p)) =
     (snd p - snd q) / (fst q - fst p) * (fst q - ((fst p + ((y + fst q - Rabs (y - fst q)) / 2)) + Rabs (fst p - ((y + fst q - Rabs (y - fst q)) / 2))) / 2)).
  { intros y. assert (M : forall a b, Rmin a b = (a + b - Rabs (a - b)) / 2). { intros a b. unfold Rmin. destruct (Rle_dec a b). rewrite Rabs_left1 by lra. field. rewrite Rabs_pos_eq by lra. field. }
    assert (M' : forall a b, Rmax a b = (a + b + Rabs (a - b)) / 2). { intros a b. unfold Rmax. destruct (Rle_dec a b). rewrite Rabs_left1 by lra. field. rewrite Rabs_pos_eq by lra. field. }
    rewrite M, M'. unfold Rdiv. ring. }
  apply (continuous_ext _ _ x (fun y => eq_sym (Q y))). clear Q IH.
  assert (Ca : forall (f : R -> R) x, continuous f x -> continuous (fun y => Rabs (f y)) x) by (intros f y Hf; apply (continuous_comp f Rabs); auto; apply continuous_Rabs).
  assert (Cm : forall c x, continuous (fun y => (y + c - Rabs (y - c)) / 2) x).
  { intros c y. apply (continuous_mult (fun y => y + c - Rabs (y - c)) (fun _ => / 2)); [|apply continuous_const]. apply (continuous_minus (fun y => y + c) (fun y => Rabs (y - c))).
    apply (continuous_plus (fun y => y) (fun _ => c)); [apply continuous_id|apply continuous_const].
    apply Ca. apply (continuous_minus (fun y => y) (fun _ => c)); [apply continuous_id|apply continuous_const]. }
  apply (continuous_mult (fun _ => (snd p - snd q) / (fst q - fst p)) (fun y => fst q - (fst p + (y + fst q - Rabs (y - fst q)) / 2 + Rabs (fst p - (y + fst q - Rabs (y - fst q)) / 2)) / 2)); [apply continuous_const|].
  apply (continuous_minus (fun _ => fst q) (fun y => (fst p + (y + fst q - Rabs (y - fst q)) / 2 + Rabs (fst p - (y + fst q - Rabs (y - fst q)) / 2)) / 2)); [apply continuous_const|].
  apply (continuous_mult (fun y => fst p + (y + fst q - Rabs (y - fst q)) / 2 + Rabs (fst p - (y + fst q - Rabs (y - fst q)) / 2)) (fun _ => / 2)); [|apply continuous_const].
  apply (continuous_plus (fun y => fst p + (y + fst q - Rabs (y - fst q)) / 2) (fun y => Rabs (fst p - (y + fst q - Rabs (y - fst q)) / 2))).
  apply (continuous_plus (fun _ => fst p) (fun y => (y + fst q - Rabs (y - fst q)) / 2)); [apply continuous_const|apply Cm].
  apply Ca. apply (continuous_minus (fun _ => fst p) (fun y => (y + fst q - Rabs (y - fst q)) / 2)); [apply continuous_const|apply Cm].
Qed.
Lemma polyline_dup K p m : polyline (K ++ p :: repeat p m) = polyline (K ++ [p]).
Proof.
  apply FunctionalExtensionality.functional_extensionality. intros x. induction K as [|a K IH].
  - cbn [app]. induction m as [|m IHm]; [reflexivity|]. cbn [repeat]. change (polyline (p :: p :: repeat p m) x) with (polyline (p :: repeat p m) x + (snd p - snd p) * ((fst p - Rmax (fst p) (Rmin x (fst p))) / (fst p - fst p))). rewrite IHm. ring.
  - destruct K as [|b K]; cbn [app] in *.
    + change (polyline (p :: repeat p m) x + (snd a - snd p) * ((fst p - Rmax (fst a) (Rmin x (fst p))) / (fst p - fst a)) = polyline [p] x + (snd a - snd p) * ((fst p - Rmax (fst a) (Rmin x (fst p))) / (fst p - fst a))). rewrite IH. reflexivity.
    + change (polyline (b :: K ++ p :: repeat p m) x + (snd a - snd b) * ((fst b - Rmax (fst a) (Rmin x (fst b))) / (fst b - fst a)) = polyline (b :: K ++ [p]) x + (snd a - snd b) * ((fst b - Rmax (fst a) (Rmin x (fst b))) / (fst b - fst a))). rewrite IH. reflexivity.
Qed.

(** ** both library routines compute the polygonal line *)
Lemma line_chord p q x : fst p < fst q -> line (fst p) (Some (snd p)) (fst q) (Some (snd q)) x = Some (chord (fst p) (snd p) (fst q) (snd q) x).
Proof. intros H. unfold line, nbind, chord. f_equal. field. lra. Qed.
Lemma seg_np_val p K x : wsorted (p :: K) -> fst p <= x -> seg_np x (lift (p :: K)) = Some (polyline (p :: K) x).
Proof.
  revert p; induction K as [|q K IH]; intros p H Hx; [reflexivity|].
  change (seg_np x (lift (p :: q :: K))) with (if Rltb x (fst q) then (if Reqb x (fst p) then Some (snd p) else line (fst p) (Some (snd p)) (fst q) (Some (snd q)) x) else seg_np x (lift (q :: K))).
  destruct (Rltb_spec x (fst q)).
  - assert (Hlt : fst p < fst q) by lra. destruct (Reqb_spec x (fst p)) as [->|].
    + rewrite polyline_left by (auto; lra). reflexivity.
    + rewrite polyline_cons by (auto; lra). apply line_chord; auto.
  - rewrite polyline_skip by (auto; lra). apply IH; [exact (wsorted_tl _ _ H)|lra].
Qed.
Lemma last_lift K d e : K <> [] -> last (lift K) d = (fst (last K e), Some (snd (last K e))).
Proof. induction K as [|p K IH]; intros H; [congruence|]. destruct K as [|q K]; [reflexivity|]. change (last (lift (p :: q :: K)) d) with (last (lift (q :: K)) d). rewrite IH by discriminate. reflexivity. Qed.
Lemma last_indep {A} (l : list A) d e : l <> [] -> last l d = last l e.
Proof. induction l as [|a l IH]; intros H; [congruence|]. destruct l; [reflexivity|]. apply IH. discriminate. Qed.
Lemma seg_jax_val p K x : wsorted (p :: K) -> fst p <= x -> x <= fst (last K p) -> seg_jax x (lift (p :: K)) = Some (polyline (p :: K) x).
Proof.
  revert p; induction K as [|q K IH]; intros p H Hx Hl; [reflexivity|].
  change (seg_jax x (lift (p :: q :: K))) with (if (Rltb x (fst q) || match lift K with [] => true | _ => false end)%bool then (if Reqb (fst q) (fst p) then Some (snd p) else line (fst p) (Some (snd p)) (fst q) (Some (snd q)) x) else seg_jax x (lift (q :: K))).
  assert (Key : x <= fst q -> (if Reqb (fst q) (fst p) then Some (snd p) else line (fst p) (Some (snd p)) (fst q) (Some (snd q)) x) = Some (polyline (p :: q :: K) x)).
  { intros Hq. destruct (Reqb_spec (fst q) (fst p)) as [E|N].
    - rewrite polyline_left by (auto; lra). reflexivity.
    - rewrite polyline_cons by (auto; lra). apply line_chord; lra. }
  destruct (Rltb_spec x (fst q)); cbn [orb].
  - apply Key. lra.
  - destruct K as [|r K]; cbn [lift map].
    + apply Key. exact Hl.
    + rewrite polyline_skip by (auto; lra). apply IH; [exact (wsorted_tl _ _ H)|lra|]. rewrite (last_indep (r :: K) q p) by discriminate. exact Hl.
Qed.
Lemma interp_np_val K x r : K <> [] -> wsorted K -> r = snd (last K (0, 0)) -> interp_np x (lift K) (Some r) = Some (polyline K x).
Proof.
  intros Hne H ->. destruct K as [|p K]; [congruence|]. unfold interp_np. change (lift (p :: K)) with ((fst p, Some (snd p)) :: lift K). cbv iota beta.
  change ((fst p, Some (snd p)) :: lift K) with (lift (p :: K)). rewrite (last_lift (p :: K) _ (0, 0)) by auto. cbn [fst].
  destruct (Rltb_spec x (fst p)).
  - rewrite polyline_left by (auto; lra). reflexivity.
  - destruct (Rltb_spec (fst (last (p :: K) (0, 0))) x).
    + rewrite (polyline_right _ x (0, 0)) by (auto; lra). reflexivity.
    + apply seg_np_val; auto; lra.
Qed.
Lemma interp_jax_val K x r : K <> [] -> wsorted K -> r = snd (last K (0, 0)) -> interp_jax x (lift K) (Some r) = Some (polyline K x).
Proof.
  intros Hne H ->. destruct K as [|p K]; [congruence|]. unfold interp_jax. change (lift (p :: K)) with ((fst p, Some (snd p)) :: lift K). cbv iota beta.
  change ((fst p, Some (snd p)) :: lift K) with (lift (p :: K)). rewrite (last_lift (p :: K) _ (0, 0)) by auto. cbn [fst].
  destruct (Rltb_spec x (fst p)).
  - rewrite polyline_left by (auto; lra). reflexivity.
  - destruct (Rltb_spec (fst (last (p :: K) (0, 0))) x).
    + rewrite (polyline_right _ x (0, 0)) by (auto; lra). reflexivity.
    + apply seg_jax_val; auto; [lra|]. destruct K as [|q K]; [simpl in *; lra|]. rewrite (last_indep (q :: K) p (0, 0)) by discriminate. simpl in *. lra.
Qed.

(** ** the truncated samples *)
Fixpoint isorted (L : list (R * R)) : Prop :=
  match L with p :: tl => match tl with q :: _ => fst p < fst q /\ isorted tl | [] => True end | [] => True end.
Lemma isorted_tl p L : isorted (p :: L) -> isorted L. Proof. destruct L; simpl; tauto. Qed.
Lemma isorted_all p L : isorted (p :: L) -> forall q, In q L -> fst p < fst q.
Proof.
  revert p; induction L as [|a L IH]; intros p H q Hq; [destruct Hq|]. destruct H as [H1 H2]. destruct Hq as [->|Hq]; auto. specialize (IH a H2 q Hq). lra.
Qed.
Lemma isorted_nth L i j d : isorted L -> (i < j)%nat -> (j < length L)%nat -> fst (nth i L d) < fst (nth j L d).
Proof.
  revert i j; induction L as [|a L IH]; intros i j H Hij Hj; [simpl in Hj; lia|]. destruct j as [|j]; [lia|]. destruct i as [|i].
  - simpl. apply (isorted_all a L H). apply nth_In. simpl in Hj. lia.
  - simpl. apply IH; [exact (isorted_tl _ _ H)|lia|simpl in Hj; lia].
Qed.
Definition below (L : list (R * R)) : list (R * R) := filter (fun p => Rltb (fst p) 100) L.
Lemma below_prefix L : isorted L -> exists m, below L = firstn m L /\ (m <= length L)%nat /\ (forall i d, (m <= i)%nat -> (i < length L)%nat -> 100 <= fst (nth i L d)) /\ (forall i d, (i < m)%nat -> fst (nth i L d) < 100).
Proof.
  induction L as [|p L IH]; intros H; [exists O; repeat split; simpl; intros; lia|]. destruct (IH (isorted_tl _ _ H)) as (m & E & Hm & A & B). unfold below. cbn [filter].
  destruct (Rltb_spec (fst p) 100) as [Hp|Hp].
  - exists (S m). split; [cbn [firstn]; f_equal; exact E|]. split; [simpl; lia|]. split; intros i d Hi.
    + destruct i as [|i]; [lia|]. intros Hl. simpl. apply A; [lia|simpl in Hl; lia].
    + destruct i as [|i]; [exact Hp|]. simpl. apply B. lia.
  - exists O. assert (Q : forall q, In q L -> 100 <= fst q) by (intros q Hq; pose proof (isorted_all p L H q Hq); lra). split; [|split; [lia|split; [|intros; lia]]].
    + cbn [firstn]. clear - Q. induction L as [|q L IH]; [reflexivity|]. cbn [filter]. pose proof (Q q (or_introl eq_refl)). destruct (Rltb_spec (fst q) 100); [lra|]. apply IH. intros; apply Q; simpl; auto.
    + intros i d _ Hl. destruct i as [|i]; [simpl; lra|]. simpl. apply Q. apply nth_In. simpl in Hl. lia.
Qed.
Definition logk (L : list (R * R)) : list (R * R) := map (fun p => (log10 (fst p), snd p)) L.
Lemma knots_real (uf af : list R) : knots (map Some uf) (map Some af) = lift (combine uf af).
Proof. unfold knots, lift. revert af; induction uf as [|u uf IH]; intros [|a af]; try reflexivity. cbn [map combine flat_map app]. rewrite IH. reflexivity. Qed.
Lemma filter_lift (P : R -> bool) L : filter (fun p => P (fst p)) (lift L) = lift (filter (fun p => P (fst p)) L).
Proof. induction L as [|p L IH]; [reflexivity|]. cbn [lift map filter fst]. destruct (P (fst p)); cbn [map]; unfold lift in IH |- *; cbn [map]; rewrite IH; reflexivity. Qed.
Lemma log_lift L : log_knots (lift L) = lift (logk L). Proof. unfold log_knots, lift, logk. rewrite !map_map. reflexivity. Qed.
Lemma trunc_np_val (uf af : list R) : log_knots (trunc_np (map Some uf) (map Some af)) = lift (logk (below (combine uf af) ++ [(100, 1)])).
Proof.
  unfold trunc_np. rewrite knots_real, (filter_lift (fun x => Rltb x 100)). change [(100, Some 1)] with (lift [(100, 1)]). unfold lift at 1 2. rewrite <- map_app. fold (lift (below (combine uf af) ++ [(100, 1)])). apply log_lift.
Qed.
Lemma trunc_jax_val (uf af : list R) : length uf = length af -> isorted (combine uf af) -> 
  log_knots (trunc_jax (map Some uf) (map Some af)) = lift (logk (below (combine uf af) ++ repeat (100, 1) (length uf - length (below (combine uf af))))).
Proof.
  intros Hl H. rewrite <- log_lift. f_equal. unfold trunc_jax.
  assert (Q : forall L : list (R * R), isorted L -> map (fun p => if Rltb (fst p) 100 then (fst p, Some (snd p)) else (100, Some 1)) L = lift (below L ++ repeat (100, 1) (length L - length (below L)))).
  { intros L HL. destruct (below_prefix L HL) as (m & E & Hm & A & B). rewrite E. rewrite firstn_length, Nat.min_l by auto. apply (list_eq_nth (0, None)).
    - unfold lift. rewrite !map_length, app_length, repeat_length, firstn_length. lia.
    - intros i Hi. rewrite map_length in Hi. rewrite (nth_map_lt _ L i (0, 0)) by auto. unfold lift. rewrite (nth_map_lt _ _ i (0, 0)) by (rewrite app_length, repeat_length, firstn_length; lia).
      destruct (Nat.lt_ge_cases i m).
      + rewrite app_nth1 by (rewrite firstn_length; lia). rewrite nth_firstn_lt by auto. pose proof (B i (0, 0) H0). destruct (Rltb_spec (fst (nth i L (0, 0))) 100); [reflexivity|lra].
      + rewrite app_nth2 by (rewrite firstn_length; lia). rewrite (nth_indep (repeat (100, 1) (length L - m)) (0, 0) (100, 1)) by (rewrite repeat_length, firstn_length; lia). rewrite nth_repeat. pose proof (A i (0, 0) H0 Hi). destruct (Rltb_spec (fst (nth i L (0, 0))) 100); [lra|reflexivity]. }
  replace (length uf) with (length (combine uf af)) by (rewrite combine_length; lia). rewrite <- Q by auto. clear. revert af; induction uf as [|u uf IH]; intros [|a af]; try reflexivity. cbn [map combine]. rewrite IH. reflexivity.
Qed.

Lemma log10_incr a b : 0 < a -> a < b -> log10 a < log10 b.
Proof. intros Ha H. unfold log10. apply Rmult_lt_compat_r; [apply Rinv_0_lt_compat; rewrite <- ln_1; apply ln_increasing; lra|apply ln_increasing; auto]. Qed.
Lemma log10_le a b : 0 < a -> a <= b -> log10 a <= log10 b.
Proof. intros Ha [H| ->]; [left; apply log10_incr; auto|lra]. Qed.
Lemma logk_sorted L : isorted L -> (forall p, In p L -> 0 < fst p) -> wsorted (logk (below L ++ [(100, 1)])).
Proof.
  induction L as [|p L IH]; intros H Hp; [simpl; auto|]. specialize (IH (isorted_tl _ _ H) (fun q Hq => Hp q (or_intror Hq))). unfold below. cbn [filter].
  destruct (Rltb_spec (fst p) 100) as [Lt|]; [|exact IH]. change (wsorted ((log10 (fst p), snd p) :: logk (below L ++ [(100, 1)]))).
  pose proof (Hp p (or_introl eq_refl)) as P0. destruct (logk (below L ++ [(100, 1)])) as [|q K] eqn:E; [simpl; auto|]. split; [left|exact IH].
  assert (Q : In q (logk (below L ++ [(100, 1)]))) by (rewrite E; left; auto). unfold logk in Q. apply in_map_iff in Q. destruct Q as (q0 & <- & Hq). cbn [fst]. apply log10_incr; auto.
  apply in_app_iff in Hq. destruct Hq as [Hq|[<-|[]]]; [|exact Lt]. apply filter_In in Hq. apply (isorted_all p L H). tauto.
Qed.
Lemma combine_isorted (uf af : list R) : length uf = length af -> increasing uf -> isorted (combine uf af).
Proof.
  revert af; induction uf as [|u uf IH]; intros [|a af] Hl H; try (simpl; auto; fail); try discriminate. destruct uf as [|u2 uf], af as [|a2 af]; try (simpl; auto; fail); try discriminate.
  split; [exact (H 0%nat ltac:(simpl; lia))|]. apply (IH (a2 :: af)); [simpl in *; lia|]. intros i Hi. apply (H (S i)). simpl in *. lia.
Qed.
(** the value at a positive impact parameter, for numpy, and for jax if the grid reaches 100 *)
Definition curve_of (uf af : list R) (u : R) : R := polyline (logk (below (combine uf af) ++ [(100, 1)])) (log10 u).
Section Curve.
Variables (uf af : list R).
Hypotheses (Hl : length uf = length af) (Hinc : increasing uf) (Hpos : forall u, In u uf -> 0 < u).
Lemma sorted_c : isorted (combine uf af). Proof. apply combine_isorted; auto. Qed.
Lemma pos_c p : In p (combine uf af) -> 0 < fst p. Proof. destruct p as [x y]. intros H. apply in_combine_l in H. apply Hpos; auto. Qed.
Lemma sorted_k : wsorted (logk (below (combine uf af) ++ [(100, 1)])). Proof. apply logk_sorted; [apply sorted_c|apply pos_c]. Qed.
Lemma last_k d : last (logk (below (combine uf af) ++ [(100, 1)])) d = (log10 100, 1).
Proof. unfold logk. rewrite map_app. apply last_last. Qed.
Lemma nonempty_k : logk (below (combine uf af) ++ [(100, 1)]) <> []. Proof. unfold logk. rewrite map_app. destruct (map _ (below (combine uf af))); discriminate. Qed.
Lemma large_np u : interp_np (lg u) (log_knots (trunc_np (map Some uf) (map Some af))) (Some 1) = Some (curve_of uf af u).
Proof. rewrite trunc_np_val. apply interp_np_val; [apply nonempty_k|apply sorted_k|rewrite last_k; reflexivity]. Qed.
Lemma large_jax u : (exists v, In v uf /\ 100 <= v) -> interp_jax (lg u) (log_knots (trunc_jax (map Some uf) (map Some af))) (Some 1) = Some (curve_of uf af u).
Proof.
  intros (v & Hv & H100). rewrite trunc_jax_val by (auto; apply sorted_c). destruct (below_prefix _ sorted_c) as (m & E & Hm & A & B).
  assert (Hlt : (length (below (combine uf af)) < length uf)%nat).
  { rewrite E, firstn_length, Nat.min_l by auto. rewrite combine_length in Hm. destruct (In_nth uf v 0 Hv) as (i & Hi & En). destruct (Nat.lt_ge_cases m (length uf)); auto. exfalso.
    specialize (B i (0, 0) ltac:(lia)). rewrite combine_nth in B by auto. simpl in B. lra. }
  destruct (length uf - length (below (combine uf af)))%nat as [|k] eqn:Ek; [lia|]. cbn [repeat].
  assert (Ed : logk (below (combine uf af) ++ (100, 1) :: repeat (100, 1) k) = logk (below (combine uf af)) ++ (log10 100, 1) :: repeat (log10 100, 1) k).
  { unfold logk. rewrite map_app. cbn [map fst snd]. do 2 f_equal. clear. induction k; [reflexivity|]. cbn [repeat map]. f_equal. auto. }
  rewrite Ed. rewrite (interp_jax_val _ _ 1).
  - rewrite polyline_dup. unfold curve_of, logk. rewrite map_app. reflexivity.
  - destruct (logk (below (combine uf af))); discriminate.
  - pose proof sorted_k as S. unfold logk in S. rewrite map_app in S. cbn [map fst snd] in S. fold (logk (below (combine uf af))) in S. clear - S.
    induction (logk (below (combine uf af))) as [|p K IH].
    + cbn [app]. clear. induction k; [simpl; auto|]. cbn [repeat]. split; [right; reflexivity|exact IHk].
    + cbn [app] in *. specialize (IH (wsorted_tl _ _ S)). destruct K as [|q K]; cbn [app] in *; (split; [exact (proj1 S)|exact IH]).
  - replace ((log10 100, 1) :: repeat (log10 100, 1) k) with (repeat (log10 100, 1) k ++ [(log10 100, 1)]) by (rewrite <- repeat_cons; reflexivity). rewrite app_assoc, last_last. reflexivity.
Qed.
Lemma curve_far u : 100 <= u -> curve_of uf af u = 1.
Proof. intros H. unfold curve_of. rewrite (polyline_right _ _ (0, 0)); [rewrite last_k; reflexivity|apply nonempty_k|apply sorted_k|rewrite last_k; apply log10_le; simpl; lra]. Qed.
Lemma curve_knot i : (i < length uf)%nat -> nth i uf 0 < 100 -> nth i (logk (below (combine uf af) ++ [(100, 1)])) (0, 0) = (log10 (nth i uf 0), nth i af 0) /\ (i < length (below (combine uf af)))%nat.
Proof.
  intros Hi H. destruct (below_prefix _ sorted_c) as (m & E & Hm & A & B). rewrite combine_length, <- Hl, Nat.min_id in *.
  assert (Him : (i < m)%nat). { destruct (Nat.lt_ge_cases i m); auto. specialize (A i (0, 0) H0 Hi). rewrite combine_nth in A by auto. simpl in A. lra. }
  rewrite E. rewrite firstn_length, combine_length, <- Hl, Nat.min_id, Nat.min_l by auto. split; auto.
  unfold logk. rewrite (nth_map_lt _ _ i (0, 0)) by (rewrite app_length, firstn_length, combine_length, <- Hl, Nat.min_id; simpl; lia).
  rewrite app_nth1 by (rewrite firstn_length, combine_length, <- Hl, Nat.min_id; lia). rewrite nth_firstn_lt by auto. rewrite combine_nth by auto. reflexivity.
Qed.
Lemma curve_between i u : (S i < length uf)%nat -> nth (S i) uf 0 < 100 -> nth i uf 0 <= u <= nth (S i) uf 0 ->
  curve_of uf af u = chord (log10 (nth i uf 0)) (nth i af 0) (log10 (nth (S i) uf 0)) (nth (S i) af 0) (log10 u).
Proof.
  intros Hi H Hu. pose proof (Hinc i Hi) as Hlt. assert (P : 0 < nth i uf 0) by (apply Hpos, nth_In; lia).
  destruct (curve_knot i ltac:(lia) ltac:(lra)) as [E1 _]. destruct (curve_knot (S i) Hi H) as [E2 L2].
  unfold curve_of. rewrite (polyline_chord _ i) by (try apply sorted_k; rewrite ?E1, ?E2; cbn [fst]; try (apply log10_incr; lra); try (split; apply log10_le; lra); unfold logk; rewrite map_length, app_length; simpl; lia).
  rewrite E1, E2. reflexivity.
Qed.
Lemma curve_tail i u : (i < length uf)%nat -> nth i uf 0 < 100 -> (S i = length uf \/ 100 <= nth (S i) uf 0) -> nth i uf 0 <= u <= 100 ->
  curve_of uf af u = chord (log10 (nth i uf 0)) (nth i af 0) (log10 100) 1 (log10 u).
Proof.
  intros Hi H Hn Hu. assert (P : 0 < nth i uf 0) by (apply Hpos, nth_In; lia). destruct (curve_knot i Hi H) as [E1 L1].
  assert (EL : S i = length (below (combine uf af))).
  { destruct (below_prefix _ sorted_c) as (m & E & Hm & A & B). rewrite combine_length, <- Hl, Nat.min_id in *. rewrite E in L1 |- *. rewrite firstn_length, combine_length, <- Hl, Nat.min_id, Nat.min_l in * by auto.
    destruct (Nat.eq_dec (S i) m); auto. exfalso. specialize (B (S i) (0, 0) ltac:(lia)). rewrite combine_nth in B by auto. simpl in B. destruct Hn as [Hn|Hn]; [lia|lra]. }
  assert (E2 : nth (S i) (logk (below (combine uf af) ++ [(100, 1)])) (0, 0) = (log10 100, 1)).
  { unfold logk. rewrite (nth_map_lt _ _ (S i) (0, 0)) by (rewrite app_length; simpl; lia). rewrite app_nth2 by lia. rewrite EL, Nat.sub_diag. reflexivity. }
  unfold curve_of. rewrite (polyline_chord _ i) by (try apply sorted_k; rewrite ?E1, ?E2; cbn [fst]; try (apply log10_incr; lra); try (split; apply log10_le; lra); unfold logk; rewrite map_length, app_length; simpl; lia).
  rewrite E1, E2. reflexivity.
Qed.
Lemma curve_left u : (0 < length uf)%nat -> nth 0 uf 0 < 100 -> 0 < u <= nth 0 uf 0 -> curve_of uf af u = nth 0 af 0.
Proof.
  intros Hn H Hu. destruct (curve_knot 0 Hn H) as [E1 L1]. unfold curve_of. destruct (logk (below (combine uf af) ++ [(100, 1)])) as [|p K] eqn:E; [exfalso; exact (nonempty_k E)|].
  pose proof sorted_k as S. rewrite E in S. simpl in E1. subst p. rewrite polyline_left; [reflexivity|exact S|]. cbn [fst]. apply log10_le; lra.
Qed.
Lemma curve_cont u : 0 < u -> continuous (curve_of uf af) u.
Proof.
  intros Hu. unfold curve_of. apply (continuous_comp log10 (polyline (logk (below (combine uf af) ++ [(100, 1)])))); [|apply polyline_cont].
  unfold log10. apply (continuous_mult ln (fun _ => / ln 10)); [apply (continuous_ln u Hu)|apply continuous_const].
Qed.
End Curve.
