(** Proofs about the root finder. *)
From Coq Require Import Reals List Bool Arith ZArith Lia Lra.
From Coquelicot Require Import Complex.
From Verif Require Import Base_R Base_List Base_C M_Utils M_Assembly M_PolySolver S_Poly P_Utils P_Assembly P_Poly P_PolyRoots.
Import ListNotations.
Local Open Scope R_scope.
Local Open Scope C_scope.

(** * one step, pointwise *)
Lemma all_some_spec l rs : all_some l = Some rs -> l = map Some rs.
Proof.
  revert rs. induction l as [|[z|] l IH]; simpl; intros rs H; try discriminate.
  - injection H as <-. reflexivity.
  - destruct (all_some l) as [m|]; try discriminate. injection H as <-. simpl. f_equal. apply IH. reflexivity.
Qed.
Lemma all_some_map (rs : list C) : all_some (map Some rs) = Some rs.
Proof. induction rs as [|r rs IH]; simpl; [reflexivity|]. rewrite IH. reflexivity. Qed.

Definition upd_of cs dcs eps (roots : list est) (r : est) : est :=
  match all_some roots, r with Some rs, Some z => ea_update cs dcs eps rs z | _, _ => None end.
Lemma ea_step_map cs dcs eps roots : ea_step cs dcs eps roots = map (upd_of cs dcs eps roots) roots.
Proof.
  unfold ea_step, upd_of. destruct (all_some roots) as [rs|] eqn:E.
  - pose proof (all_some_spec _ _ E) as ->. rewrite map_map. reflexivity.
  - reflexivity.
Qed.
Definition step1 cs dcs eps tol (roots : list est) (p : est * bool) : est * bool :=
  let u := upd_of cs dcs eps roots (fst p) in
  ((if snd p then fst p else est_minus (fst p) u), snd p || est_small tol u).
Lemma ea_body_map cs dcs eps tol st :
  ea_body cs dcs eps tol st = map (step1 cs dcs eps tol (map fst st)) st.
Proof.
  unfold ea_body. rewrite ea_step_map.
  generalize (map fst st) at 1 3 as roots. intros roots.
  induction st as [|[r d] st IH]; simpl; [reflexivity|]. f_equal. exact IH.
Qed.
Definition st_def : est * bool := (None, false).
Lemma ea_body_length cs dcs eps tol st : length (ea_body cs dcs eps tol st) = length st.
Proof. rewrite ea_body_map. apply map_length. Qed.
Lemma ea_body_nth cs dcs eps tol st i : (i < length st)%nat ->
  nth i (ea_body cs dcs eps tol st) st_def = step1 cs dcs eps tol (map fst st) (nth i st st_def).
Proof. intros H. rewrite ea_body_map. apply nth_map_lt; exact H. Qed.
Lemma step1_frozen cs dcs eps tol roots r : step1 cs dcs eps tol roots (r, true) = (r, true).
Proof. reflexivity. Qed.

(** * the loop *)
Definition ea_iter cs dcs eps tol (k : nat) st := Nat.iter k (ea_body cs dcs eps tol) st.
Lemma ea_iter_S cs dcs eps tol k st :
  ea_iter cs dcs eps tol (S k) st = ea_iter cs dcs eps tol k (ea_body cs dcs eps tol st).
Proof. unfold ea_iter. simpl. induction k; simpl; [reflexivity|]. rewrite IHk. reflexivity. Qed.
Lemma ea_iter_length cs dcs eps tol k st : length (ea_iter cs dcs eps tol k st) = length st.
Proof. unfold ea_iter. induction k; simpl; [reflexivity|]. rewrite ea_body_length. exact IHk. Qed.
Lemma ea_loop_spec cs dcs eps tol fuel : forall st,
  let it := fst (ea_loop cs dcs eps tol fuel st) in
  (it <= fuel)%nat /\
  snd (ea_loop cs dcs eps tol fuel st) = ea_iter cs dcs eps tol it st /\
  (forall k, (k < it)%nat -> forallb snd (ea_iter cs dcs eps tol k st) = false) /\
  ((it < fuel)%nat -> forallb snd (ea_iter cs dcs eps tol it st) = true).
Proof.
  induction fuel as [|k IH]; intros st.
  - cbn [ea_loop fst snd]. split; [lia|]. split; [reflexivity|]. split; intros; lia.
  - cbn [ea_loop]. destruct (forallb snd st) eqn:E.
    + cbn [fst snd]. split; [lia|]. split; [reflexivity|]. split; [intros; lia|]. intros _. exact E.
    + specialize (IH (ea_body cs dcs eps tol st)).
      destruct (ea_loop cs dcs eps tol k (ea_body cs dcs eps tol st)) as [it st'].
      cbn [fst snd] in IH |- *. destruct IH as (A & B & D & F).
      split; [lia|]. rewrite ea_iter_S. split; [exact B|]. split.
      * intros [|j] Hj; [exact E|]. rewrite ea_iter_S. apply D. lia.
      * intros H. apply F. lia.
Qed.
Lemma ea_iter_frozen cs dcs eps tol st i r j k : (i < length st)%nat -> (j <= k)%nat ->
  nth i (ea_iter cs dcs eps tol j st) st_def = (r, true) ->
  nth i (ea_iter cs dcs eps tol k st) st_def = (r, true).
Proof.
  intros Hi Hk H. induction Hk; [exact H|].
  change (ea_iter cs dcs eps tol (S m) st) with (ea_body cs dcs eps tol (ea_iter cs dcs eps tol m st)).
  rewrite ea_body_nth; [|rewrite ea_iter_length; exact Hi]. rewrite IHHk. reflexivity.
Qed.
(** what a fresh mark certifies *)
Lemma ea_mark cs dcs eps tol st i r r' : (i < length st)%nat ->
  nth i st st_def = (r, false) -> nth i (ea_body cs dcs eps tol st) st_def = (r', true) ->
  exists rs z z', map fst st = map Some rs /\ r = Some z /\ r' = Some z' /\ (Cmod (z' - z)%C <= tol)%R /\
    (((polyval dcs z - polyval cs z * recip_sum z rs) * (z - z') = polyval cs z /\
      (eps <= Cmod (polyval dcs z - polyval cs z * recip_sum z rs)%C)%R) \/
     (polyval dcs z * (z - z') = polyval cs z /\ polyval dcs z <> 0)).
Proof.
  intros Hi H H'. rewrite ea_body_nth in H' by exact Hi. rewrite H in H'.
  unfold step1, upd_of in H'. cbn [fst snd orb] in H'.
  destruct (all_some (map fst st)) as [rs|] eqn:E; [|destruct r; discriminate H'].
  destruct r as [z|]; [|discriminate H'].
  unfold ea_update in H'.
  remember (polyval dcs z - polyval cs z * recip_sum z rs) as den.
  destruct (Rltb_spec (Cmod den) eps).
  - destruct (Ceq_dec (polyval dcs z) 0) as [|N]; [discriminate H'|].
    cbn in H'. injection H' as <- T. apply Rleb_true in T.
    exists rs, z, (z - polyval cs z / polyval dcs z). split; [apply all_some_spec; exact E|].
    split; [reflexivity|]. split; [reflexivity|]. split.
    { replace (z - polyval cs z / polyval dcs z - z) with (- (polyval cs z / polyval dcs z)) by ring.
      rewrite Cmod_opp. exact T. }
    right. split; [|exact N]. field. exact N.
  - destruct (Ceq_dec den 0) as [|N]; [discriminate H'|].
    cbn in H'. injection H' as <- T. apply Rleb_true in T.
    exists rs, z, (z - polyval cs z / den). split; [apply all_some_spec; exact E|].
    split; [reflexivity|]. split; [reflexivity|]. split.
    { replace (z - polyval cs z / den - z) with (- (polyval cs z / den)) by ring.
      rewrite Cmod_opp. exact T. }
    left. rewrite <- Heqden. split; [|apply Rnot_lt_le; assumption]. field. exact N.
Qed.

(** * derivative coefficients *)
Lemma polyder_pderiv cs : (2 <= length cs)%nat -> polyder_coeffs cs = pderiv cs.
Proof.
  intros H. unfold polyder_coeffs. destruct (Nat.eqb_spec (length cs - 1) 0); [lia|]. clear H n.
  destruct cs as [|c t]; [reflexivity|]. cbn [length]. rewrite Nat.sub_succ, Nat.sub_0_r.
  revert c. induction t as [|c' t IH]; intros c; [reflexivity|].
  rewrite pderiv_cons2. cbn [length seq map]. f_equal.
  - cbn [nth]. rewrite Nat.sub_0_r. apply Cmult_comm.
  - rewrite <- IH. rewrite <- seq_shift, map_map. reflexivity.
Qed.

(** * exact roots *)
Lemma upd_exact cs eps rs (z : C) : (2 <= length cs)%nat -> peval cs z = 0 -> peval (pderiv cs) z <> 0 ->
  ea_update cs (polyder_coeffs cs) eps rs z = Some (RtoC 0).
Proof.
  intros L Hz Hp. unfold ea_update. rewrite (polyder_pderiv _ L), !polyval_peval, Hz.
  replace (peval (pderiv cs) z - 0 * recip_sum z rs) with (peval (pderiv cs) z) by ring.
  destruct (Rltb (Cmod (peval (pderiv cs) z)%C) eps);
    (destruct (Ceq_dec (peval (pderiv cs) z) 0) as [e|_]; [contradiction|]);
    (f_equal; field; exact Hp).
Qed.
Definition st0 (init : list C) : list (est * bool) := map (fun r => (Some r, false)) init.
Lemma st0_fst init : map fst (st0 init) = map Some init.
Proof. unfold st0. rewrite map_map. reflexivity. Qed.
Lemma est_some_minus0 z : est_minus (Some z) (Some (RtoC 0)) = Some z.
Proof. cbn. f_equal. ring. Qed.
Lemma exact_first cs eps tol init i (z : C) : (2 <= length cs)%nat -> (0 <= tol)%R ->
  nth_error init i = Some z -> peval cs z = 0 -> peval (pderiv cs) z <> 0 ->
  nth i (ea_body cs (polyder_coeffs cs) eps tol (st0 init)) st_def = (Some z, true).
Proof.
  intros L T Hi Hz Hp. pose proof (nth_error_Some init i) as NS.
  assert (HL : (i < length init)%nat) by (apply NS; rewrite Hi; discriminate).
  rewrite ea_body_nth by (unfold st0; rewrite map_length; exact HL).
  replace (nth i (st0 init) st_def) with (Some z, false).
  2:{ unfold st0. rewrite (nth_map_lt _ _ _ (RtoC 0)) by exact HL.
      rewrite (nth_error_nth _ _ _ Hi). reflexivity. }
  unfold step1, upd_of. rewrite st0_fst, all_some_map. cbn [fst snd].
  rewrite upd_exact by assumption. rewrite est_some_minus0. cbn [orb est_small].
  f_equal. apply Rleb_true. rewrite Cmod_0. exact T.
Qed.
Definition clean1 (tol : R) (cs : list C) (r : C) : C :=
  if forallb (fun c => Rltb (Rabs (Im c)) (10 * tol)) cs
  then (Re r, if Rltb (Rabs (Im r)) (10 * tol) then 0%R else Im r) else r.
Lemma clean_nth tol cs l i : nth i (clean_real_roots tol cs l) None = option_map (clean1 tol cs) (nth i l None).
Proof.
  unfold clean_real_roots, clean1. destruct (forallb _ cs).
  - change (@None C) with (option_map (fun r : C => (Re r, if Rltb (Rabs (Im r)) (10 * tol) then 0%R else Im r)) None) at 1.
    apply map_nth.
  - destruct (nth i l None); reflexivity.
Qed.
Lemma clean_length tol cs l : length (clean_real_roots tol cs l) = length l.
Proof. unfold clean_real_roots. destruct (forallb _ cs); [apply map_length|reflexivity]. Qed.
Lemma from_nth cs init tol m i :
  nth i (poly_roots_EA_from cs init tol m) None =
  option_map (clean1 tol cs) (fst (nth i (snd (ea_loop cs (polyder_coeffs cs) (eps64 * 10) tol m (st0 init))) st_def)).
Proof.
  unfold poly_roots_EA_from. fold (st0 init).
  destruct (ea_loop cs (polyder_coeffs cs) (eps64 * 10) tol m (st0 init)) as [it st].
  rewrite clean_nth. cbn [snd]. f_equal. change (@None C) with (fst st_def). apply map_nth.
Qed.
Lemma from_length cs init tol m : length (poly_roots_EA_from cs init tol m) = length init.
Proof.
  unfold poly_roots_EA_from. fold (st0 init).
  pose proof (ea_loop_spec cs (polyder_coeffs cs) (eps64 * 10) tol m (st0 init)) as (_ & B & _).
  destruct (ea_loop cs (polyder_coeffs cs) (eps64 * 10) tol m (st0 init)) as [it st].
  cbn [fst snd] in B. rewrite clean_length, map_length, B, ea_iter_length. apply map_length.
Qed.
(** an exact simple root in a warm start is returned, up to the final cleaning *)
Lemma exact_kept cs init tol m i (z : C) : (2 <= length cs)%nat -> (0 <= tol)%R -> (1 <= m)%nat ->
  nth_error init i = Some z -> peval cs z = 0 -> peval (pderiv cs) z <> 0 ->
  nth i (poly_roots_EA_from cs init tol m) None = Some (clean1 tol cs z).
Proof.
  intros L T M Hi Hz Hp. rewrite from_nth.
  pose proof (exact_first cs (eps64 * 10) tol init i z L T Hi Hz Hp) as F.
  assert (HL : (i < length init)%nat) by (apply nth_error_Some; rewrite Hi; discriminate).
  destruct m as [|m]; [lia|]. cbn [ea_loop].
  destruct (forallb snd (st0 init)) eqn:E.
  { exfalso. rewrite forallb_forall in E.
    specialize (E (Some z, false)). discriminate E. unfold st0.
    apply in_map_iff. exists z. split; [reflexivity|]. apply (nth_error_In _ _ Hi). }
  pose proof (ea_loop_spec cs (polyder_coeffs cs) (eps64 * 10) tol m
     (ea_body cs (polyder_coeffs cs) (eps64 * 10) tol (st0 init))) as (_ & B & _).
  destruct (ea_loop cs (polyder_coeffs cs) (eps64 * 10) tol m
     (ea_body cs (polyder_coeffs cs) (eps64 * 10) tol (st0 init))) as [it st]. cbn [fst snd] in *.
  rewrite B. rewrite (ea_iter_frozen _ _ _ _ _ i (Some z) 0 it); [reflexivity| |lia|exact F].
  rewrite ea_body_length. unfold st0. rewrite map_length. exact HL.
Qed.
Lemma clean1_close tol cs z : (0 <= tol)%R -> (Cmod (clean1 tol cs z - z)%C <= 10 * tol)%R.
Proof.
  intros T. unfold clean1. destruct (forallb _ cs).
  - destruct (Rltb_spec (Rabs (Im z)) (10 * tol)).
    + replace ((Re z, 0%R) - z) with ((0%R, (- Im z)%R) : C) by (apply Ceq; unfold Re, Im; simpl; ring).
      unfold Cmod. simpl. replace (0 * (0 * 1) + - Im z * (- Im z * 1))%R with (Rsqr (Im z)) by (unfold Rsqr; ring).
      rewrite sqrt_Rsqr_abs. lra.
    + replace ((Re z, Im z) - z) with (RtoC 0) by (apply Ceq; unfold Re, Im; simpl; ring). rewrite Cmod_0. lra.
  - replace (z - z) with (RtoC 0) by ring. rewrite Cmod_0. lra.
Qed.
Lemma clean1_id tol cs z : Im z = 0%R \/ (10 * tol <= Rabs (Im z))%R \/
  (exists c, In c cs /\ (10 * tol <= Rabs (Im c))%R) -> clean1 tol cs z = z.
Proof.
  intros H. unfold clean1. destruct (forallb _ cs) eqn:E; [|reflexivity].
  destruct H as [H|[H|(c & Hc & H)]].
  - destruct (Rltb _ _); apply Ceq; unfold Re, Im in *; simpl; auto.
  - destruct (Rltb_spec (Rabs (Im z)) (10 * tol)); [lra|]. apply Ceq; reflexivity.
  - rewrite forallb_forall in E. specialize (E c Hc). apply Rltb_true in E. lra.
Qed.

(** * coincident estimates stay coincident *)
Lemma coincide cs dcs eps tol st i j k : (i < length st)%nat -> (j < length st)%nat ->
  nth i st st_def = nth j st st_def ->
  nth i (ea_iter cs dcs eps tol k st) st_def = nth j (ea_iter cs dcs eps tol k st) st_def.
Proof.
  intros Hi Hj H. induction k as [|k IH]; [exact H|].
  change (ea_iter cs dcs eps tol (S k) st) with (ea_body cs dcs eps tol (ea_iter cs dcs eps tol k st)).
  rewrite !ea_body_nth by (rewrite ea_iter_length; assumption). rewrite IH. reflexivity.
Qed.
Lemma coincide_result cs init tol m i j : (i < length init)%nat -> (j < length init)%nat ->
  nth i init (RtoC 0) = nth j init (RtoC 0) ->
  nth i (poly_roots_EA_from cs init tol m) None = nth j (poly_roots_EA_from cs init tol m) None.
Proof.
  intros Hi Hj H. rewrite !from_nth.
  pose proof (ea_loop_spec cs (polyder_coeffs cs) (eps64 * 10) tol m (st0 init)) as (_ & B & _).
  rewrite B. do 2 f_equal. apply coincide; unfold st0; rewrite ?map_length; try assumption.
  rewrite !(nth_map_lt _ _ _ (RtoC 0)) by assumption. rewrite H. reflexivity.
Qed.

(** * real polynomials and real guesses never leave the real line *)
Definition est_real (r : est) : Prop := match r with None => True | Some z => Im z = 0%R end.
Lemma realP (z : C) : Im z = 0%R <-> exists x : R, z = RtoC x.
Proof.
  split.
  - intros H. exists (Re z). apply Ceq; [reflexivity|exact H].
  - intros (x & ->). reflexivity.
Qed.
Lemma Im_plus0 (z w : C) : Im z = 0%R -> Im w = 0%R -> Im (z + w) = 0%R.
Proof. unfold Im. simpl. intros -> ->. ring. Qed.
Lemma Im_minus0 (z w : C) : Im z = 0%R -> Im w = 0%R -> Im (z - w) = 0%R.
Proof. unfold Im. simpl. intros -> ->. ring. Qed.
Lemma Im_mult0 (z w : C) : Im z = 0%R -> Im w = 0%R -> Im (z * w) = 0%R.
Proof. unfold Im. simpl. intros -> ->. ring. Qed.
Lemma Im_inv0 (z : C) : Im z = 0%R -> Im (/ z) = 0%R.
Proof. unfold Im. simpl. intros ->. unfold Rdiv. ring. Qed.
Lemma Im_div0 (z w : C) : Im z = 0%R -> Im w = 0%R -> Im (z / w) = 0%R.
Proof. intros A B. apply Im_mult0; [exact A|]. apply Im_inv0; exact B. Qed.
Lemma polyval_real cs z : (forall c, In c cs -> Im c = 0%R) -> Im z = 0%R -> Im (polyval cs z) = 0%R.
Proof.
  intros H Hz. unfold polyval. assert (G : Im (RtoC 0) = 0%R) by reflexivity.
  revert G. generalize (RtoC 0). induction cs as [|c cs IH]; intros a G; [exact G|].
  cbn [fold_left]. apply IH.
  - intros x Hx. apply H. right; exact Hx.
  - apply Im_plus0; [apply Im_mult0; assumption|]. apply H. left; reflexivity.
Qed.
Lemma polyder_real cs : (forall c, In c cs -> Im c = 0%R) -> forall c, In c (polyder_coeffs cs) -> Im c = 0%R.
Proof.
  intros H c. unfold polyder_coeffs. destruct (length cs - 1 =? 0)%nat; intros Hc; apply in_map_iff in Hc; destruct Hc as (k & <- & Hk).
  - reflexivity.
  - apply Im_mult0; [|reflexivity]. apply in_seq in Hk. apply H. apply nth_In. lia.
Qed.
Lemma recip_real z rs : (forall c, In c rs -> Im c = 0%R) -> Im z = 0%R -> Im (recip_sum z rs) = 0%R.
Proof.
  intros H Hz. unfold recip_sum. induction rs as [|r rs IH]; [reflexivity|].
  cbn [map sumC]. apply Im_plus0.
  - destruct (Ceq_dec (z - r) 0); [reflexivity|]. apply Im_div0; [reflexivity|].
    apply Im_minus0; [exact Hz|]. apply H. left; reflexivity.
  - apply IH. intros x Hx. apply H. right; exact Hx.
Qed.
Lemma body_real cs eps tol st : (forall c, In c cs -> Im c = 0%R) ->
  (forall p, In p st -> est_real (fst p)) ->
  forall p, In p (ea_body cs (polyder_coeffs cs) eps tol st) -> est_real (fst p).
Proof.
  intros H HS p. rewrite ea_body_map. intros Hp. apply in_map_iff in Hp. destruct Hp as ((r, d) & <- & Hr).
  unfold step1. cbn [fst snd]. pose proof (HS _ Hr) as HR. cbn [fst] in HR.
  destruct d; [exact HR|]. unfold upd_of.
  destruct (all_some (map fst st)) as [rs|] eqn:E; [|destruct r; exact I].
  destruct r as [z|]; [|exact I]. cbn in HR.
  assert (Hrs : forall c, In c rs -> Im c = 0%R).
  { intros c Hc. apply all_some_spec in E. assert (G : In (Some c) (map fst st)).
    { rewrite E. apply in_map. exact Hc. }
    apply in_map_iff in G. destruct G as (q & Eq & Hq). specialize (HS _ Hq). rewrite Eq in HS. exact HS. }
  assert (Hf : Im (polyval cs z) = 0%R) by (apply polyval_real; assumption).
  assert (Hfp : Im (polyval (polyder_coeffs cs) z) = 0%R)
    by (apply polyval_real; [apply polyder_real|]; assumption).
  assert (Hd : Im (polyval (polyder_coeffs cs) z - polyval cs z * recip_sum z rs) = 0%R)
    by (apply Im_minus0; [exact Hfp|]; apply Im_mult0; [exact Hf|apply recip_real; assumption]).
  unfold ea_update. destruct (Rltb _ eps).
  - destruct (Ceq_dec (polyval (polyder_coeffs cs) z) 0); [exact I|]. cbn [est_minus est_real]. apply Im_minus0; [exact HR|apply Im_div0; assumption].
  - destruct (Ceq_dec _ 0); [exact I|]. cbn [est_minus est_real]. apply Im_minus0; [exact HR|apply Im_div0; assumption].
Qed.
Lemma real_stays cs init tol m i (z : C) : (forall c, In c cs -> Im c = 0%R) ->
  (forall c, In c init -> Im c = 0%R) ->
  nth i (poly_roots_EA_from cs init tol m) None = Some z -> Im z = 0%R.
Proof.
  intros H HI. rewrite from_nth.
  pose proof (ea_loop_spec cs (polyder_coeffs cs) (eps64 * 10) tol m (st0 init)) as (_ & B & _).
  rewrite B. generalize (fst (ea_loop cs (polyder_coeffs cs) (eps64 * 10) tol m (st0 init))) as k. clear B. intros k.
  assert (G : forall p, In p (ea_iter cs (polyder_coeffs cs) (eps64 * 10) tol k (st0 init)) -> est_real (fst p)).
  { induction k as [|k IH].
    - intros p Hp. apply in_map_iff in Hp. destruct Hp as (c & <- & Hc). exact (HI c Hc).
    - apply body_real; assumption. }
  set (st := ea_iter cs (polyder_coeffs cs) (eps64 * 10) tol k (st0 init)) in *.
  destruct (nth_in_or_default i st st_def) as [J|J]; [|rewrite J; discriminate].
  specialize (G _ J). destruct (fst (nth i st st_def)) as [w|]; [|discriminate].
  intros E. injection E as <-. cbn in G. unfold clean1. destruct (forallb _ cs); [|exact G].
  destruct (Rltb _ _); [reflexivity|exact G].
Qed.

(** * the Cauchy radius *)
Lemma peval_geom M t z : (forall c, In c t -> (Cmod c <= M)%R) -> (1 <= Cmod z)%R ->
  (Cmod (peval t z)%C * (Cmod z - 1) <= M * (Cmod z ^ length t - 1))%R.
Proof.
  intros H Hz. induction t as [|c t IH].
  - simpl. rewrite Cmod_0. lra.
  - rewrite peval_cons. cbn [length pow].
    pose proof (Cmod_triangle (c * z ^ length t) (peval t z)) as T. rewrite Cmod_mult, Cmod_pow in T.
    assert (I : (Cmod (peval t z)%C * (Cmod z - 1) <= M * (Cmod z ^ length t - 1))%R).
    { apply IH. intros x Hx. apply H. right; exact Hx. }
    assert (J : (Cmod c <= M)%R) by (apply H; left; reflexivity).
    set (x := Cmod z) in *. set (P := (x ^ length t)%R) in *.
    assert (HP : (0 <= P)%R) by (apply pow_le; lra).
    assert (K : (Cmod c * P * (x - 1) <= M * P * (x - 1))%R).
    { apply Rmult_le_compat_r; [lra|]. apply Rmult_le_compat_r; assumption. }
    assert (L : (Cmod (c * z ^ length t + peval t z)%C * (x - 1) <= (Cmod c * P + Cmod (peval t z)%C) * (x - 1))%R).
    { apply Rmult_le_compat_r; [lra|exact T]. }
    nra.
Qed.
Lemma peval_zeros t z : (forall c, In c t -> c = RtoC 0) -> peval t z = 0.
Proof.
  intros H. induction t as [|c t IH]; [reflexivity|]. rewrite peval_cons, IH, (H c).
  - ring.
  - left; reflexivity.
  - intros x Hx. apply H. right; exact Hx.
Qed.
Lemma cauchy_bound cs (z : C) : (2 <= length cs)%nat -> (eps64 <= Cmod (hd (RtoC 0) cs)%C)%R ->
  peval cs z = 0 -> (Cmod z < cauchy_radius cs)%R.
Proof.
  intros L He Hz. destruct cs as [|c0 t]; [simpl in L; lia|]. cbn [hd] in He.
  assert (E0 : (0 < eps64)%R) by (unfold eps64; apply Rinv_0_lt_compat, pow_lt; lra).
  unfold cauchy_radius. cbn [nth tl]. rewrite Rmax_left by exact He.
  set (M := jmax (map (fun c => Cmod c / Cmod c0)%R t)).
  assert (NE : map (fun c => Cmod c / Cmod c0)%R t <> []) by (destruct t; [simpl in L; lia|discriminate]).
  destruct (jmax_spec _ NE) as [JI JM]. fold M in JI, JM.
  assert (HM : (0 <= M)%R).
  { apply in_map_iff in JI. destruct JI as (c & <- & _). apply Rmult_le_pos; [apply Cmod_ge_0|].
    apply Rlt_le, Rinv_0_lt_compat. lra. }
  destruct (Rlt_le_dec (Cmod z) 1) as [Hs|Hs]; [lra|].
  assert (B : forall c, In c t -> (Cmod c <= M * Cmod c0)%R).
  { intros c Hc. assert (G : (Cmod c / Cmod c0 <= M)%R) by (apply JM, in_map_iff; exists c; auto).
    apply (Rmult_le_compat_r (Cmod c0)) in G; [|lra]. unfold Rdiv in G.
    rewrite Rmult_assoc, Rinv_l, Rmult_1_r in G by lra. exact G. }
  pose proof (peval_geom _ t z B Hs) as G.
  rewrite peval_cons in Hz.
  assert (F : Cmod (peval t z)%C = (Cmod c0 * Cmod z ^ length t)%R).
  { replace (peval t z) with (- (c0 * z ^ length t)).
    - rewrite Cmod_opp, Cmod_mult, Cmod_pow. reflexivity.
    - transitivity (- (c0 * z ^ length t) + (c0 * z ^ length t + peval t z)); [rewrite Hz; ring|ring]. }
  rewrite F in G. set (x := Cmod z) in *. set (P := (x ^ length t)%R) in *.
  assert (HP : (1 <= P)%R) by (apply pow_R1_Rle; exact Hs).
  apply Rnot_le_lt. intros Hx.
  assert (K : (M * P <= (x - 1) * P)%R) by (apply Rmult_le_compat_r; lra).
  assert (K2 : (Cmod c0 * (P * (x - 1)) <= Cmod c0 * (M * (P - 1)))%R) by nra.
  apply Rmult_le_reg_l in K2; [|lra].
  destruct HM as [HM|HM]; [nra|].
  assert (Z0 : peval t z = 0).
  { apply peval_zeros. intros c Hc. apply Cmod_eq_0. specialize (B c Hc). pose proof (Cmod_ge_0 c).
    rewrite <- HM in B. lra. }
  rewrite Z0, Cmod_0 in F. assert (0 < Cmod c0 * P)%R by (apply Rmult_lt_0_compat; lra). lra.
Qed.
Lemma jmax1 x : jmax [x] = x.
Proof. reflexivity. Qed.
Lemma eps64_pos : (0 < eps64)%R.
Proof. unfold eps64; apply Rinv_0_lt_compat, pow_lt; lra. Qed.
Lemma eps64_lt1 : (eps64 < 1)%R.
Proof.
  unfold eps64. rewrite <- Rinv_1. apply Rinv_lt_contravar.
  - rewrite Rmult_1_l. apply pow_lt; lra.
  - apply Rlt_pow_R1; [lra|lia].
Qed.
Lemma cauchy_fails : exists cs (z : C), hd (RtoC 0) cs <> 0 /\ length cs = 2%nat /\ peval cs z = 0 /\ (cauchy_radius cs < Cmod z)%R.
Proof.
  pose proof eps64_pos as E. pose proof eps64_lt1 as E1.
  exists [RtoC (eps64 / 4); RtoC 1], (RtoC (- (4 / eps64))). split; [|split; [|split]].
  - apply RtoC_neq0. lra.
  - reflexivity.
  - apply Ceq; simpl; [field; lra|ring].
  - unfold cauchy_radius. cbn [nth tl map]. rewrite !Cmod_R, jmax1.
    rewrite (Rabs_pos_eq (eps64 / 4)) by lra. rewrite Rmax_right by lra. rewrite Rabs_R1, Rabs_Ropp.
    assert (I : (1 < / eps64)%R) by (rewrite <- Rinv_1; apply Rinv_lt_contravar; lra).
    rewrite Rabs_pos_eq by (unfold Rdiv; lra). unfold Rdiv. lra.
Qed.

(** the starting points lie on the circle and are pairwise different *)
Lemma cexpi_inj s t : (0 <= s < 2 * PI)%R -> (0 <= t < 2 * PI)%R -> cexpi s = cexpi t -> s = t.
Proof.
  intros Hs Ht E. assert (K : cexpi (s - t) = RtoC 1).
  { unfold Rminus. rewrite cexpi_add, E, <- cexpi_add, Rplus_opp_r. apply cexpi_0. }
  assert (Cs : cos (2 * ((s - t) / 2)) = 1%R).
  { replace (2 * ((s - t) / 2))%R with (s - t)%R by field. exact (f_equal fst K). }
  rewrite cos_2a_sin in Cs.
  assert (Sn : sin ((s - t) / 2) = 0%R) by nra.
  destruct (Rtotal_order s t) as [H|[H|H]]; [|exact H|]; exfalso.
  - assert (P : (0 < sin ((t - s) / 2))%R) by (apply sin_gt_0; lra).
    replace ((t - s) / 2)%R with (- ((s - t) / 2))%R in P by field. rewrite sin_neg in P. lra.
  - assert (P : (0 < sin ((s - t) / 2))%R) by (apply sin_gt_0; lra). lra.
Qed.
Lemma NoDup_map_inj {A B} (f : A -> B) l :
  (forall x y, In x l -> In y l -> f x = f y -> x = y) -> NoDup l -> NoDup (map f l).
Proof.
  intros H N. induction N as [|x l Hx N IH]; simpl; [constructor|]. constructor.
  - intros K. apply in_map_iff in K. destruct K as (y & E & Hy). apply Hx.
    rewrite (H x y); [exact Hy|left; reflexivity|right; exact Hy|symmetry; exact E].
  - apply IH. intros a b Ha Hb. apply H; right; assumption.
Qed.
Lemma cauchy_pos cs : (2 <= length cs)%nat -> (0 < cauchy_radius cs)%R.
Proof.
  intros L. unfold cauchy_radius. destruct cs as [|c0 t]; [simpl in L; lia|]. cbn [nth tl].
  assert (NE : map (fun c => Cmod c / Rmax (Cmod c0) eps64)%R t <> []) by (destruct t; [simpl in L; lia|discriminate]).
  destruct (jmax_spec _ NE) as [JI _]. apply in_map_iff in JI. destruct JI as (c & E & _). rewrite <- E.
  assert (0 <= Cmod c / Rmax (Cmod c0) eps64)%R; [|lra].
  apply Rmult_le_pos; [apply Cmod_ge_0|]. apply Rlt_le, Rinv_0_lt_compat.
  pose proof eps64_pos. pose proof (Rmax_r (Cmod c0) eps64). lra.
Qed.
Lemma circle_spec cs : (2 <= length cs)%nat ->
  length (initial_circle cs) = (length cs - 1)%nat /\ NoDup (initial_circle cs) /\
  forall z, In z (initial_circle cs) -> Cmod z = cauchy_radius cs.
Proof.
  intros L. pose proof (cauchy_pos cs L) as P. unfold initial_circle. split; [|split].
  - rewrite map_length, seq_length. reflexivity.
  - apply NoDup_map_inj; [|apply seq_NoDup]. intros x y Hx Hy E.
    apply in_seq in Hx, Hy. set (n := (length cs - 1)%nat) in *.
    assert (N : (0 < INR n)%R) by (apply lt_0_INR; lia).
    assert (Q : forall k, (k < n)%nat -> (0 <= 2 * PI * INR k / INR n < 2 * PI)%R).
    { intros k Hk. pose proof PI_RGT_0. apply lt_INR in Hk. pose proof (pos_INR k).
      split.
      - apply Rmult_le_pos; [nra|]. apply Rlt_le, Rinv_0_lt_compat; exact N.
      - apply (Rmult_lt_reg_r (INR n)); [exact N|]. unfold Rdiv. rewrite Rmult_assoc, Rinv_l by lra. nra. }
    apply (f_equal (fun w => / RtoC (cauchy_radius cs) * w)) in E.
    assert (P0 : RtoC (cauchy_radius cs) <> 0) by (apply RtoC_neq0; lra).
    rewrite !Cmult_assoc, !(Cinv_l _ P0), !Cmult_1_l in E.
    apply cexpi_inj in E; try (apply Q; lia).
    apply INR_eq. pose proof PI_RGT_0.
    replace (INR x) with (2 * PI * INR x / INR n * (INR n / (2 * PI)))%R by (field; lra).
    rewrite E. field. lra.
  - intros z Hz. apply in_map_iff in Hz. destruct Hz as (k & <- & _).
    rewrite Cmod_mult, Cmod_cexpi, Cmod_R, Rabs_pos_eq; lra.
Qed.

(** * derivatives of complex-valued functions of a real parameter *)
Lemma cderiv_const c t : cderiv (fun _ => c) t 0.
Proof.
  intros e He. exists 1%R. split; [lra|]. intros h _.
  replace (c - c - RtoC h * 0) with (RtoC 0) by ring. rewrite Cmod_0.
  apply Rmult_le_pos; [lra|apply Rabs_pos].
Qed.
Lemma cderiv_plus f g t a b : cderiv f t a -> cderiv g t b -> cderiv (fun x => f x + g x) t (a + b).
Proof.
  intros F G e He. destruct (F (e / 2)%R) as (d1 & D1 & H1); [lra|]. destruct (G (e / 2)%R) as (d2 & D2 & H2); [lra|].
  exists (Rmin d1 d2). split; [apply Rmin_pos; assumption|]. intros h Hh.
  pose proof (Rmin_l d1 d2). pose proof (Rmin_r d1 d2).
  specialize (H1 h ltac:(lra)). specialize (H2 h ltac:(lra)).
  replace (f (t + h)%R + g (t + h)%R - (f t + g t) - RtoC h * (a + b)) with
    ((f (t + h)%R - f t - RtoC h * a) + (g (t + h)%R - g t - RtoC h * b)) by ring.
  eapply Rle_trans; [apply Cmod_triangle|]. lra.
Qed.
Lemma cderiv_lip f t a : cderiv f t a -> exists d, (0 < d)%R /\
  forall h, (Rabs h < d)%R -> (Cmod (f (t + h)%R - f t)%C <= (Cmod a + 1) * Rabs h)%R.
Proof.
  intros F. destruct (F 1%R ltac:(lra)) as (d & D & H). exists d. split; [exact D|]. intros h Hh.
  specialize (H h Hh).
  replace (f (t + h)%R - f t) with ((f (t + h)%R - f t - RtoC h * a) + RtoC h * a) by ring.
  eapply Rle_trans; [apply Cmod_triangle|]. rewrite Cmod_mult, Cmod_R. lra.
Qed.
Lemma cderiv_mult f g t a b : cderiv f t a -> cderiv g t b -> cderiv (fun x => f x * g x) t (a * g t + f t * b).
Proof.
  intros F G e He.
  destruct (cderiv_lip _ _ _ F) as (d0 & D0 & H0). destruct (cderiv_lip _ _ _ G) as (d3 & D3 & H3).
  set (A := (Cmod a + 1)%R) in *. set (B := (Cmod b + 1)%R) in *.
  assert (PA : (0 < A)%R) by (unfold A; pose proof (Cmod_ge_0 a); lra).
  assert (PB : (0 < B)%R) by (unfold B; pose proof (Cmod_ge_0 b); lra).
  set (U := (Cmod (f t)%C + 1)%R). set (V := (Cmod (g t)%C + 1)%R).
  assert (PU : (0 < U)%R) by (unfold U; pose proof (Cmod_ge_0 (f t)); lra).
  assert (PV : (0 < V)%R) by (unfold V; pose proof (Cmod_ge_0 (g t)); lra).
  assert (E1 : (0 < e / (3 * V))%R) by (apply Rdiv_lt_0_compat; lra).
  assert (E2 : (0 < e / (3 * U))%R) by (apply Rdiv_lt_0_compat; lra).
  destruct (F _ E1) as (d1 & D1 & H1). destruct (G _ E2) as (d2 & D2 & H2).
  assert (PAB : (0 < A * B)%R) by (apply Rmult_lt_0_compat; assumption).
  set (d4 := (e / (3 * (A * B)))%R). assert (D4 : (0 < d4)%R) by (apply Rdiv_lt_0_compat; lra).
  exists (Rmin (Rmin d0 d3) (Rmin (Rmin d1 d2) d4)). split.
  { repeat apply Rmin_pos; assumption. }
  intros h Hh.
  pose proof (Rmin_l (Rmin d0 d3) (Rmin (Rmin d1 d2) d4)). pose proof (Rmin_r (Rmin d0 d3) (Rmin (Rmin d1 d2) d4)).
  pose proof (Rmin_l d0 d3). pose proof (Rmin_r d0 d3).
  pose proof (Rmin_l (Rmin d1 d2) d4). pose proof (Rmin_r (Rmin d1 d2) d4).
  pose proof (Rmin_l d1 d2). pose proof (Rmin_r d1 d2).
  specialize (H0 h ltac:(lra)). specialize (H1 h ltac:(lra)). specialize (H2 h ltac:(lra)). specialize (H3 h ltac:(lra)).
  assert (Hh4 : (Rabs h < d4)%R) by lra.
  replace (f (t + h)%R * g (t + h)%R - f t * g t - RtoC h * (a * g t + f t * b)) with
    ((f (t + h)%R - f t - RtoC h * a) * g t + f t * (g (t + h)%R - g t - RtoC h * b)
     + (f (t + h)%R - f t) * (g (t + h)%R - g t)) by ring.
  eapply Rle_trans; [apply Cmod_triangle|]. eapply Rle_trans; [apply Rplus_le_compat_r, Cmod_triangle|].
  rewrite !Cmod_mult. set (x := Rabs h) in *. pose proof (Rabs_pos h) as X0. fold x in X0.
  assert (T1 : (Cmod (f (t + h)%R - f t - RtoC h * a)%C * Cmod (g t)%C <= e / 3 * x)%R).
  { replace (e / 3 * x)%R with (e / (3 * V) * x * V)%R by (field; lra).
    apply Rmult_le_compat; try apply Cmod_ge_0; [exact H1|unfold V; lra]. }
  assert (T2 : (Cmod (f t)%C * Cmod (g (t + h)%R - g t - RtoC h * b)%C <= e / 3 * x)%R).
  { replace (e / 3 * x)%R with (U * (e / (3 * U) * x))%R by (field; lra).
    apply Rmult_le_compat; try apply Cmod_ge_0; [unfold U; lra|exact H2]. }
  assert (T3 : (Cmod (f (t + h)%R - f t)%C * Cmod (g (t + h)%R - g t)%C <= e / 3 * x)%R).
  { apply Rle_trans with (A * x * (B * x))%R.
    - apply Rmult_le_compat; try apply Cmod_ge_0; assumption.
    - replace (A * x * (B * x))%R with (A * B * x * x)%R by ring. apply Rmult_le_compat_r; [exact X0|].
      apply Rlt_le. apply Rlt_le_trans with (A * B * d4)%R; [apply Rmult_lt_compat_l; assumption|].
      unfold d4. right. field. lra. }
  lra.
Qed.
Lemma cderiv_ext f g t a : (forall x, f x = g x) -> cderiv f t a -> cderiv g t a.
Proof. intros E F e He. destruct (F e He) as (d & D & H). exists d. split; [exact D|]. intros h Hh. rewrite <- !E. apply H; exact Hh. Qed.
Lemma cderiv_unique f t a b : cderiv f t a -> cderiv f t b -> a = b.
Proof.
  intros F G. apply Cminus_eq_0. apply Cmod_eq_0. apply Rle_antisym; [|apply Cmod_ge_0].
  apply Rnot_lt_le. intros P.
  set (m := Cmod (a - b)%C) in *.
  destruct (F (m / 3)%R ltac:(lra)) as (d1 & D1 & H1). destruct (G (m / 3)%R ltac:(lra)) as (d2 & D2 & H2).
  set (h := (Rmin d1 d2 / 2)%R).
  assert (Hm : (0 < Rmin d1 d2)%R) by (apply Rmin_pos; assumption).
  pose proof (Rmin_l d1 d2). pose proof (Rmin_r d1 d2).
  assert (Ph : (0 < h)%R) by (unfold h; lra).
  assert (Rh : Rabs h = h) by (apply Rabs_pos_eq; lra).
  specialize (H1 h ltac:(rewrite Rh; unfold h; lra)). specialize (H2 h ltac:(rewrite Rh; unfold h; lra)).
  assert (K : (h * m <= m / 3 * h + m / 3 * h)%R).
  { replace (h * m)%R with (Cmod (RtoC h * (a - b))%C) by (rewrite Cmod_mult, Cmod_R, Rh; reflexivity).
    replace (RtoC h * (a - b)) with ((f (t + h)%R - f t - RtoC h * b) + - (f (t + h)%R - f t - RtoC h * a)) by ring.
    eapply Rle_trans; [apply Cmod_triangle|]. rewrite Cmod_opp, Rh in *. lra. }
  nra.
Qed.
Lemma cderiv_local f g t a : (exists d, (0 < d)%R /\ forall h, (Rabs h < d)%R -> f (t + h)%R = g (t + h)%R) ->
  cderiv f t a -> cderiv g t a.
Proof.
  intros (d0 & D0 & E) F e He. destruct (F e He) as (d & D & H). exists (Rmin d0 d).
  split; [apply Rmin_pos; assumption|]. intros h Hh.
  pose proof (Rmin_l d0 d). pose proof (Rmin_r d0 d).
  rewrite <- E by lra. replace (g t) with (f t). { apply H; lra. }
  replace t with (t + 0)%R by ring. apply E. rewrite Rabs_R0. exact D0.
Qed.
Lemma cderiv_pow z t a n : cderiv z t a -> cderiv (fun x => z x ^ n) t (RtoC (INR n) * z t ^ (n - 1) * a).
Proof.
  intros Z. induction n as [|n IH].
  - replace (RtoC (INR 0) * z t ^ (0 - 1) * a) with (RtoC 0) by (simpl; ring).
    apply (cderiv_ext (fun _ => RtoC 1)); [reflexivity|]. apply cderiv_const.
  - replace (RtoC (INR (S n)) * z t ^ (S n - 1) * a) with (a * z t ^ n + z t * (RtoC (INR n) * z t ^ (n - 1) * a)).
    + apply (cderiv_ext (fun x => z x * z x ^ n)); [reflexivity|]. apply cderiv_mult; assumption.
    + rewrite S_INR, RtoC_plus. replace (S n - 1)%nat with n by lia. destruct n as [|n].
      * simpl. ring.
      * replace (S n - 1)%nat with n by lia. cbn [Cpow]. ring.
Qed.
Lemma Forall2_len {A B} (P : A -> B -> Prop) l m : Forall2 P l m -> length l = length m.
Proof. induction 1; simpl; congruence. Qed.
Lemma cderiv_peval (cs : list (R -> C)) dc z t (a : C) : Forall2 (fun c l => cderiv c t l) cs dc -> cderiv z t a ->
  cderiv (fun x => peval (map (fun c => c x) cs) (z x)) t
    (peval dc (z t) + peval (pderiv (map (fun c => c t) cs)) (z t) * a).
Proof.
  intros F Z. induction F as [|c l cs dc Hc F IH].
  - simpl. replace (0 + 0 * a) with (RtoC 0) by ring. apply cderiv_const.
  - pose proof (Forall2_len _ _ _ F) as FL.
    assert (G : cderiv (fun x => c x * z x ^ length cs + peval (map (fun c => c x) cs) (z x)) t
       ((l * z t ^ length cs + c t * (RtoC (INR (length cs)) * z t ^ (length cs - 1) * a))
        + (peval dc (z t) + peval (pderiv (map (fun c => c t) cs)) (z t) * a))).
    { apply cderiv_plus; [|exact IH]. apply cderiv_mult; [exact Hc|]. apply cderiv_pow; exact Z. }
    eapply cderiv_ext in G; [|intros x; symmetry; cbn [map]; rewrite peval_cons, map_length; reflexivity].
    match type of G with cderiv _ _ ?v => replace (peval (l :: dc) (z t) + peval (pderiv (map (fun c => c t) (c :: cs))) (z t) * a) with v; [exact G|] end.
    rewrite peval_cons, <- FL. cbn [map]. destruct cs as [|c' cs].
    + simpl. ring.
    + cbn [map]. rewrite pderiv_cons2, peval_cons, pderiv_length, map_length. cbn [length].
      replace (S (length cs) - 1)%nat with (length cs) by lia. ring.
Qed.
Lemma sumC_vander dc z : 
  sumC (map (fun k => z ^ (length dc - 1 - k) * nth k dc (RtoC 0)) (seq 0 (length dc))) = peval dc z.
Proof.
  induction dc as [|c t IH]; [reflexivity|].
  cbn [length seq map sumC]. rewrite peval_cons. f_equal.
  - cbn [nth]. replace (S (length t) - 1 - 0)%nat with (length t) by lia. ring.
  - rewrite <- IH, <- seq_shift, map_map. f_equal. apply map_ext. intros k. cbn [nth].
    replace (S (length t) - 1 - S k)%nat with (length t - 1 - k)%nat by lia. reflexivity.
Qed.
Lemma tangent_value cs dc z : (2 <= length cs)%nat -> length dc = length cs ->
  poly_roots_tangent cs dc z = - peval dc z / peval (pderiv cs) z.
Proof.
  intros L E. unfold poly_roots_tangent. rewrite (polyder_pderiv _ L), polyval_peval.
  rewrite <- E. replace (S (length dc - 1)) with (length dc) by lia. rewrite sumC_vander. reflexivity.
Qed.
Lemma implicit_tangent (cs : list (R -> C)) dc (z : R -> C) t (a : C) : (2 <= length cs)%nat ->
  Forall2 (fun c l => cderiv c t l) cs dc -> cderiv z t a ->
  (exists d, (0 < d)%R /\ forall h, (Rabs h < d)%R -> peval (map (fun c => c (t + h)%R) cs) (z (t + h)%R) = 0) ->
  peval (pderiv (map (fun c => c t) cs)) (z t) <> 0 ->
  a = poly_roots_tangent (map (fun c => c t) cs) dc (z t).
Proof.
  intros L F Z R N. rewrite tangent_value.
  2:{ rewrite map_length; exact L. }
  2:{ rewrite map_length. symmetry. apply (Forall2_len _ _ _ F). }
  pose proof (cderiv_peval cs dc z t a F Z) as D.
  assert (D0 : cderiv (fun x => peval (map (fun c => c x) cs) (z x)) t 0).
  { apply (cderiv_local (fun _ => RtoC 0)); [|apply cderiv_const].
    destruct R as (d & P & H). exists d. split; [exact P|]. intros h Hh. symmetry. apply H; exact Hh. }
  pose proof (cderiv_unique _ _ _ _ D D0) as E.
  set (p := peval (pderiv (map (fun c => c t) cs)) (z t)) in *.
  replace (- peval dc (z t)) with (p * a).
  - field. exact N.
  - transitivity ((peval dc (z t) + p * a) - peval dc (z t)); [ring|]. rewrite E. ring.
Qed.

(** * batches *)
Lemma concat_len {A} (rows : list (list A)) k : (forall r, In r rows -> length r = k) ->
  length (concat rows) = (length rows * k)%nat.
Proof.
  intros H. induction rows as [|r rows IH]; [reflexivity|]. simpl. rewrite app_length, IH, H; auto.
  - left; reflexivity.
  - intros x Hx. apply H. right; exact Hx.
Qed.
Lemma reshape_of_concat {A} k (rows : list (list A)) : k <> 0%nat -> (forall r, In r rows -> length r = k) ->
  reshape_rows k (concat rows) = rows.
Proof.
  intros Hk H. unfold reshape_rows. rewrite (concat_len rows k H), Nat.div_mul by exact Hk.
  induction rows as [|r rows IH]; [reflexivity|].
  cbn [length seq map concat]. assert (Lr : length r = k) by (apply H; left; reflexivity). f_equal.
  - simpl. rewrite firstn_app, Lr, Nat.sub_diag, firstn_all2 by lia. simpl. apply app_nil_r.
  - transitivity (map (fun n => firstn k (skipn (n * k) (concat rows))) (seq 0 (length rows))).
    2:{ apply IH. intros x Hx. apply H. right; exact Hx. }
    rewrite <- seq_shift, map_map. apply map_ext. intros n. f_equal.
    rewrite skipn_app, Lr. rewrite (skipn_all2 r) by (simpl; lia). simpl. f_equal. lia.
Qed.
Lemma batch_none ncoeffs rows : (2 <= ncoeffs)%nat -> (forall r, In r rows -> length r = ncoeffs) ->
  poly_roots ncoeffs (concat rows) None =
  Ok (concat (map (fun row => poly_roots_EA_from row (initial_circle row) default_tol default_max_iter) rows)).
Proof.
  intros N H. unfold poly_roots. destruct (Nat.ltb_spec (ncoeffs - 1) 1); [lia|].
  rewrite reshape_of_concat by (assumption || lia). reflexivity.
Qed.
Lemma batch_some ncoeffs (pairs : list (list C * list C)) : (2 <= ncoeffs)%nat ->
  (forall p, In p pairs -> length (fst p) = ncoeffs /\ length (snd p) = (ncoeffs - 1)%nat) ->
  poly_roots ncoeffs (concat (map fst pairs)) (Some (concat (map snd pairs))) =
  Ok (concat (map (fun p => poly_roots_EA_from (fst p) (snd p) default_tol default_max_iter) pairs)).
Proof.
  intros N H. unfold poly_roots. destruct (Nat.ltb_spec (ncoeffs - 1) 1); [lia|].
  assert (H1 : forall r, In r (map fst pairs) -> length r = ncoeffs).
  { intros r Hr. apply in_map_iff in Hr. destruct Hr as (p & <- & Hp). apply H; exact Hp. }
  assert (H2 : forall r, In r (map snd pairs) -> length r = (ncoeffs - 1)%nat).
  { intros r Hr. apply in_map_iff in Hr. destruct Hr as (p & <- & Hp). apply H; exact Hp. }
  rewrite (reshape_of_concat ncoeffs) by (assumption || lia).
  rewrite (concat_len _ _ H2), !map_length, Nat.eqb_refl.
  rewrite (reshape_of_concat (ncoeffs - 1)) by (assumption || lia).
  unfold poly_roots_EA_multi. do 2 f_equal.
  clear. induction pairs as [|[a b] pairs IH]; [reflexivity|]. simpl. f_equal. exact IH.
Qed.
Lemma nth_concat_rows {A} (d : A) rows n b k : (forall r, In r rows -> length r = n) -> (k < n)%nat ->
  forall row, nth_error rows b = Some row -> nth (b * n + k) (concat rows) d = nth k row d.
Proof.
  intros H Hk. revert b. induction rows as [|r rows IH]; intros [|b] row E; try discriminate E.
  - injection E as ->. simpl. apply app_nth1. rewrite (H row); [exact Hk|left; reflexivity].
  - cbn [nth_error] in E. cbn [concat]. assert (Lr : length r = n) by (apply H; left; reflexivity).
    rewrite app_nth2 by (rewrite Lr; simpl; lia). rewrite Lr.
    replace (S b * n + k - n)%nat with (b * n + k)%nat by (simpl; lia).
    apply IH; [|exact E]. intros x Hx. apply H. right; exact Hx.
Qed.
Lemma initial_circle_length cs : length (initial_circle cs) = (length cs - 1)%nat.
Proof. unfold initial_circle. rewrite map_length, seq_length. reflexivity. Qed.
Lemma batch_cold ncoeffs rows : (2 <= ncoeffs)%nat -> (forall r, In r rows -> length r = ncoeffs) ->
  exists out, poly_roots ncoeffs (concat rows) None = Ok out /\ length out = (length rows * (ncoeffs - 1))%nat /\
  forall b row, nth_error rows b = Some row -> exists single, poly_roots_EA row None default_tol default_max_iter = Ok single /\
    forall k, (k < ncoeffs - 1)%nat -> nth (b * (ncoeffs - 1) + k) out None = nth k single None.
Proof.
  intros N H. eexists. split; [apply batch_none; assumption|].
  assert (HL : forall r, In r (map (fun row => poly_roots_EA_from row (initial_circle row) default_tol default_max_iter) rows) ->
                 length r = (ncoeffs - 1)%nat).
  { intros r Hr. apply in_map_iff in Hr. destruct Hr as (x & <- & Hx).
    rewrite from_length, initial_circle_length, (H x Hx). reflexivity. }
  split; [rewrite (concat_len _ _ HL), map_length; reflexivity|].
  intros b row E. exists (poly_roots_EA_from row (initial_circle row) default_tol default_max_iter). split.
  - unfold poly_roots_EA. rewrite (H row (nth_error_In _ _ E)). destruct (Nat.ltb_spec (ncoeffs - 1) 1); [lia|reflexivity].
  - intros k Hk. apply nth_concat_rows; [exact HL|exact Hk|]. rewrite nth_error_map, E. reflexivity.
Qed.
Lemma batch_warm ncoeffs (pairs : list (list C * list C)) : (2 <= ncoeffs)%nat ->
  (forall p, In p pairs -> length (fst p) = ncoeffs /\ length (snd p) = (ncoeffs - 1)%nat) ->
  exists out, poly_roots ncoeffs (concat (map fst pairs)) (Some (concat (map snd pairs))) = Ok out /\
  length out = (length pairs * (ncoeffs - 1))%nat /\
  forall b p, nth_error pairs b = Some p -> exists single, poly_roots_EA (fst p) (Some (snd p)) default_tol default_max_iter = Ok single /\
    forall k, (k < ncoeffs - 1)%nat -> nth (b * (ncoeffs - 1) + k) out None = nth k single None.
Proof.
  intros N H. eexists. split; [apply batch_some; assumption|].
  assert (HL : forall r, In r (map (fun p => poly_roots_EA_from (fst p) (snd p) default_tol default_max_iter) pairs) ->
                 length r = (ncoeffs - 1)%nat).
  { intros r Hr. apply in_map_iff in Hr. destruct Hr as (x & <- & Hx).
    rewrite from_length. apply H; exact Hx. }
  split; [rewrite (concat_len _ _ HL), map_length; reflexivity|].
  intros b p E. exists (poly_roots_EA_from (fst p) (snd p) default_tol default_max_iter). split.
  - unfold poly_roots_EA. rewrite (proj1 (H p (nth_error_In _ _ E))). destruct (Nat.ltb_spec (ncoeffs - 1) 1); [lia|reflexivity].
  - intros k Hk. apply nth_concat_rows; [exact HL|exact Hk|]. rewrite nth_error_map, E. reflexivity.
Qed.
Lemma batch_bad ncoeffs flat r : (2 <= ncoeffs)%nat ->
  length r <> (length flat / ncoeffs * (ncoeffs - 1))%nat -> poly_roots ncoeffs flat (Some r) = Raise ValueError.
Proof.
  intros N H. unfold poly_roots. destruct (Nat.ltb_spec (ncoeffs - 1) 1); [lia|].
  destruct (Nat.eqb_spec (length r) (length (reshape_rows ncoeffs flat) * (ncoeffs - 1))); [|reflexivity].
  exfalso. apply H. unfold reshape_rows in e. rewrite map_length, seq_length in e. exact e.
Qed.

Lemma all_exact cs init tol m : (2 <= length cs)%nat -> (0 <= tol)%R -> (1 <= m)%nat ->
  (forall z : C, In z init -> peval cs z = 0 /\ peval (pderiv cs) z <> 0) ->
  exists out, poly_roots_EA cs (Some init) tol m = Ok out /\ length out = length init /\
    forall i (z : C), nth_error init i = Some z -> exists w, nth_error out i = Some (Some w) /\ (Cmod (w - z)%C <= 10 * tol)%R /\
      (Im z = 0%R \/ (10 * tol <= Rabs (Im z))%R \/ (exists c, In c cs /\ (10 * tol <= Rabs (Im c))%R) -> w = z).
Proof.
  intros L T M H. eexists. split.
  { unfold poly_roots_EA. destruct (Nat.ltb_spec (length cs - 1) 1); [lia|reflexivity]. }
  split; [apply from_length|]. intros i z E.
  destruct (H z (nth_error_In _ _ E)) as [H1 H2].
  exists (clean1 tol cs z). split; [|split; [apply clean1_close; exact T|apply clean1_id]].
  pose proof (exact_kept cs init tol m i z L T M E H1 H2) as K.
  rewrite (nth_error_nth' (poly_roots_EA_from cs init tol m) (None : est)); [f_equal; exact K|]. rewrite from_length.
  apply nth_error_Some. rewrite E. discriminate.
Qed.
Lemma one_exact cs init tol m i (z : C) : (2 <= length cs)%nat -> (0 <= tol)%R -> (1 <= m)%nat ->
  nth_error init i = Some z -> peval cs z = 0 -> peval (pderiv cs) z <> 0 ->
  exists out w, poly_roots_EA cs (Some init) tol m = Ok out /\ nth_error out i = Some (Some w) /\ (Cmod (w - z)%C <= 10 * tol)%R /\
      (Im z = 0%R \/ (10 * tol <= Rabs (Im z))%R \/ (exists c, In c cs /\ (10 * tol <= Rabs (Im c))%R) -> w = z).
Proof.
  intros L T M E H1 H2. eexists. exists (clean1 tol cs z). split.
  { unfold poly_roots_EA. destruct (Nat.ltb_spec (length cs - 1) 1); [lia|reflexivity]. }
  split; [|split; [apply clean1_close; exact T|apply clean1_id]].
  pose proof (exact_kept cs init tol m i z L T M E H1 H2) as K.
  rewrite (nth_error_nth' (poly_roots_EA_from cs init tol m) (None : est)); [f_equal; exact K|]. rewrite from_length.
  apply nth_error_Some. rewrite E. discriminate.
Qed.
(** exact roots that are lost *)
Lemma double_root_nan m : (1 <= m)%nat ->
  splits [RtoC 1; RtoC 0; RtoC 0] [RtoC 0; RtoC 0] /\
  forall i, nth i (poly_roots_EA_from [RtoC 1; RtoC 0; RtoC 0] [RtoC 0; RtoC 0] default_tol m) None = None.
Proof.
  intros M. split.
  { intros z. unfold peval, prodC, hd, map. cbn [length Cpow]. ring. }
  set (cs := [RtoC 1; RtoC 0; RtoC 0]). intros i. rewrite from_nth.
  pose proof (ea_loop_spec cs (polyder_coeffs cs) (eps64 * 10) default_tol m (st0 [RtoC 0; RtoC 0])) as (A & B & D & F).
  set (k := fst (ea_loop cs (polyder_coeffs cs) (eps64 * 10) default_tol m (st0 [RtoC 0; RtoC 0]))) in *.
  assert (U : ea_body cs (polyder_coeffs cs) (eps64 * 10) default_tol (st0 [RtoC 0; RtoC 0]) = [(None, false); (None, false)]).
  { rewrite ea_body_map. unfold st0, step1, upd_of. cbn [map fst snd all_some option_map].
    assert (W : ea_update cs (polyder_coeffs cs) (eps64 * 10) [RtoC 0; RtoC 0] (RtoC 0) = None).
    { unfold ea_update. rewrite (polyder_pderiv cs) by (simpl; lia). rewrite !polyval_peval.
      assert (P1 : peval (pderiv cs) 0 = 0) by (unfold cs, pderiv, peval; cbn [length Cpow INR]; ring).
      assert (P2 : peval cs 0 = 0) by (unfold cs, peval; cbn [length Cpow]; ring).
      rewrite P1, P2. replace (0 - 0 * recip_sum 0 [RtoC 0; RtoC 0]) with (RtoC 0) by ring.
      destruct (Rltb _ _); destruct (Ceq_dec 0 0) as [_|n]; try reflexivity; exfalso; apply n; reflexivity. }
    rewrite W. reflexivity. }
  assert (I : forall j, ea_iter cs (polyder_coeffs cs) (eps64 * 10) default_tol j [(None, false); (None, false)] = [(None, false); (None, false)]).
  { induction j as [|j IH]; [reflexivity|]. rewrite ea_iter_S. exact IH. }
  assert (K : k = m).
  { destruct (Nat.lt_total k m) as [Lt|[Eq|Gt]]; [|exact Eq|lia].
    specialize (F Lt). destruct k as [|k']; [discriminate F|].
    rewrite ea_iter_S, U, I in F. discriminate F. }
  rewrite B, K. destruct m as [|m']; [lia|]. rewrite ea_iter_S, U, I.
  destruct i as [|[|[|i]]]; reflexivity.
Qed.
Definition close_pair : R := (5 / 10 ^ 12)%R.
Lemma cleaned_away m : (1 <= m)%nat ->
  exists out, poly_roots_EA [RtoC 1; RtoC 0; RtoC (close_pair * close_pair)] (Some [(0, close_pair)%R : C; (0, - close_pair)%R : C]) default_tol m = Ok out /\
    out = [Some (RtoC 0); Some (RtoC 0)] /\
    splits [RtoC 1; RtoC 0; RtoC (close_pair * close_pair)] [(0, close_pair)%R : C; (0, - close_pair)%R : C] /\
    peval [RtoC 1; RtoC 0; RtoC (close_pair * close_pair)] 0 <> 0.
Proof.
  intros M. set (a := close_pair). assert (Pa : (0 < a)%R) by (unfold a, close_pair; apply Rdiv_lt_0_compat; [lra|apply pow_lt; lra]).
  assert (Ha : (a < 10 * default_tol)%R).
  { unfold a, close_pair, default_tol, Rdiv. apply Rmult_lt_compat_r; [|lra]. apply Rinv_0_lt_compat, pow_lt; lra. }
  set (cs := [RtoC 1; RtoC 0; RtoC (a * a)]).
  assert (R1 : peval cs ((0, a)%R : C) = 0) by (unfold cs, peval; cbn [length Cpow]; apply Ceq; simpl; ring).
  assert (R2 : peval cs ((0, - a)%R : C) = 0) by (unfold cs, peval; cbn [length Cpow]; apply Ceq; simpl; ring).
  assert (Q : forall z : C, peval (pderiv cs) z = 2 * z) by (intros z; unfold cs, pderiv, peval; cbn [length Cpow INR]; apply Ceq; simpl; ring).
  assert (N1 : peval (pderiv cs) ((0, a)%R : C) <> 0).
  { rewrite Q. intros E. apply (f_equal snd) in E. simpl in E. lra. }
  assert (N2 : peval (pderiv cs) ((0, - a)%R : C) <> 0).
  { rewrite Q. intros E. apply (f_equal snd) in E. simpl in E. lra. }
  assert (T : (0 <= default_tol)%R) by lra.
  eexists. split. { unfold poly_roots_EA. cbn [length Nat.sub Nat.ltb Nat.leb cs]. reflexivity. }
  split; [|split].
  - apply (list_eq_nth None); [rewrite from_length; reflexivity|]. intros i Hi. rewrite from_length in Hi.
    assert (CL : forall z : C, Re z = 0%R -> (Rabs (Im z) < 10 * default_tol)%R -> clean1 default_tol cs z = RtoC 0).
    { intros z Hz Hz'. unfold clean1.
      assert (FB : forallb (fun c => Rltb (Rabs (Im c)) (10 * default_tol)) cs = true).
      { apply forallb_forall. intros c Hc. apply Rltb_true.
        assert (Z : Im c = 0%R) by (destruct Hc as [<-|[<-|[<-|[]]]]; reflexivity). rewrite Z, Rabs_R0. lra. }
      rewrite FB. apply Rltb_true in Hz'. rewrite Hz', Hz. reflexivity. }
    destruct i as [|[|i]]; [| |simpl in Hi; lia].
    + rewrite (exact_kept cs _ default_tol m 0 ((0, a)%R : C)); try assumption; try reflexivity; [|simpl; lia].
      rewrite CL; [reflexivity|reflexivity|]. simpl. rewrite Rabs_pos_eq; lra.
    + rewrite (exact_kept cs _ default_tol m 1 ((0, - a)%R : C)); try assumption; try reflexivity; [|simpl; lia].
      rewrite CL; [reflexivity|reflexivity|]. simpl. rewrite Rabs_Ropp, Rabs_pos_eq; lra.
  - intros z. unfold cs, peval, prodC, hd, map. cbn [length Cpow]. apply Ceq; simpl; ring.
  - unfold cs, peval. cbn [length Cpow]. intros E. apply (f_equal fst) in E. simpl in E. nra.
Qed.
(** coincident guesses cannot recover a polynomial without multiple roots *)
Lemma coincident_never cs init tol m i j rs : (i < length init)%nat -> (j < length init)%nat -> i <> j ->
  nth i init (RtoC 0) = nth j init (RtoC 0) -> hd (RtoC 0) cs <> 0 ->
  poly_roots_EA_from cs init tol m = map Some rs -> splits cs rs ->
  exists z : C, peval cs z = 0 /\ peval (pderiv cs) z = 0.
Proof.
  intros Hi Hj Nij E Hc R Sp.
  assert (LR : length rs = length init) by (rewrite <- (from_length cs init tol m), R, map_length; reflexivity).
  pose proof (coincide_result cs init tol m i j Hi Hj E) as K. rewrite R in K.
  rewrite !(nth_map_lt _ _ _ (RtoC 0)) in K by lia. injection K as K.
  exists (nth i rs (RtoC 0)). split.
  - apply (splits_root cs rs); [exact Sp|exact Hc|]. apply nth_In. lia.
  - apply (splits_double cs rs); [exact Sp| |].
    + intros ->. apply Hc. reflexivity.
    + destruct (nth_split rs (RtoC 0) (n := i)) as (l1 & l2 & Er & L1); [lia|].
      exists l1, l2. split; [exact Er|]. rewrite K.
      assert (G : nth j rs (RtoC 0) = nth j (l1 ++ nth i rs (RtoC 0) :: l2) (RtoC 0)) by (rewrite <- Er; reflexivity).
      destruct (Nat.lt_total j i) as [Lt|[Eq|Gt]]; [|lia|].
      * rewrite app_nth1 in G by lia. apply in_or_app. left. rewrite G. apply nth_In. lia.
      * rewrite app_nth2 in G by lia. replace (j - length l1)%nat with (S (j - length l1 - 1)) in G by lia. cbn [nth] in G.
        apply in_or_app. right. rewrite G. apply nth_In.
        assert (LL : length rs = (length l1 + S (length l2))%nat) by (rewrite Er at 1; rewrite app_length; reflexivity). lia.
Qed.
Lemma forallb_false_nth (st : list (est * bool)) : forallb snd st = false ->
  exists i, (i < length st)%nat /\ snd (nth i st (None, false)) = false.
Proof.
  induction st as [|[r d] st IH]; simpl; [discriminate|]. destruct d; simpl.
  - intros H. destruct (IH H) as (i & Hi & E). exists (S i). split; [lia|exact E].
  - intros _. exists 0%nat. split; [lia|reflexivity].
Qed.
Lemma mark_certificate cs tol st i r r' : (2 <= length cs)%nat -> (i < length st)%nat ->
  nth i st (None, false) = (r, false) ->
  nth i (ea_body cs (polyder_coeffs cs) (eps64 * 10) tol st) (None, false) = (r', true) ->
  exists others (z z' : C), map fst st = map Some others /\ r = Some z /\ r' = Some z' /\ (Cmod (z' - z)%C <= tol)%R /\
    ((peval (pderiv cs) z - peval cs z * sumC (map (fun w => if Ceq_dec (z - w) 0 then RtoC 0 else 1 / (z - w)) others)) * (z - z') = peval cs z
     \/ (peval (pderiv cs) z * (z - z') = peval cs z /\ peval (pderiv cs) z <> 0)).
Proof.
  intros L Hi H H'. destruct (ea_mark cs (polyder_coeffs cs) (eps64 * 10) tol st i r r' Hi H H') as (rs & z & z' & A & B & D & E & F).
  rewrite (polyder_pderiv _ L), !polyval_peval in F.
  exists rs, z, z'. split; [exact A|]. split; [exact B|]. split; [exact D|]. split; [exact E|].
  destruct F as [[F _]|F]; [left|right]; exact F.
Qed.
Lemma output_length cs init tol max_iter : (2 <= length cs)%nat ->
  exists out, poly_roots_EA cs init tol max_iter = Ok out /\
    length out = match init with None => (length cs - 1)%nat | Some i => length i end.
Proof.
  intros L. eexists. split.
  - unfold poly_roots_EA. destruct (Nat.ltb_spec (length cs - 1) 1); [lia|reflexivity].
  - rewrite from_length. destruct init; [reflexivity|apply initial_circle_length].
Qed.
Lemma linear_run : exists st', ea_loop [RtoC 1; RtoC (-3)] (polyder_coeffs [RtoC 1; RtoC (-3)]) (eps64 * 10) default_tol 100
    [(Some (RtoC 0), false)] = (2%nat, st') /\ st' = [(Some (RtoC 3), true)].
Proof.
  set (cs := [RtoC 1; RtoC (-3)]).
  assert (T0 : (0 < default_tol)%R) by (apply Rinv_0_lt_compat, pow_lt; lra).
  assert (T1 : (default_tol < 1)%R).
  { unfold default_tol. rewrite <- Rinv_1. apply Rinv_lt_contravar.
    - rewrite Rmult_1_l. apply pow_lt; lra.
    - apply Rlt_pow_R1; [lra|lia]. }
  assert (E10 : (eps64 * 10 < 1)%R).
  { unfold eps64. apply (Rmult_lt_reg_l (2 ^ 52)); [apply pow_lt; lra|].
    rewrite <- Rmult_assoc, Rinv_r, Rmult_1_l, Rmult_1_r by (apply pow_nonzero; lra).
    apply Rlt_le_trans with (2 ^ 4)%R; [lra|]. apply Rle_pow; [lra|lia]. }
  assert (U : forall x : R, ea_update cs (polyder_coeffs cs) (eps64 * 10) [RtoC x] (RtoC x) = Some (RtoC (x - 3))).
  { intros x. unfold ea_update. rewrite (polyder_pderiv cs) by (simpl; lia). rewrite !polyval_peval.
    assert (P1 : peval (pderiv cs) x = 1) by (unfold cs, pderiv, peval; cbn [length Cpow INR]; ring).
    assert (P2 : peval cs x = RtoC (x - 3)) by (unfold cs, peval; cbn [length Cpow]; apply Ceq; simpl; ring).
    rewrite P1, P2. unfold recip_sum. cbn [map sumC].
    destruct (Ceq_dec (RtoC x - RtoC x) 0) as [_|n]; [|exfalso; apply n; ring].
    replace (1 - RtoC (x - 3) * (0 + 0)) with (RtoC 1) by ring. rewrite Cmod_1.
    destruct (Rltb_spec 1 (eps64 * 10)); [lra|].
    destruct (Ceq_dec 1 0) as [e|_]; [exfalso; apply C1_neq0; exact e|]. f_equal. apply Ceq; simpl; field. }
  assert (B1 : ea_body cs (polyder_coeffs cs) (eps64 * 10) default_tol [(Some (RtoC 0), false)] = [(Some (RtoC 3), false)]).
  { rewrite ea_body_map. unfold step1, upd_of. cbn [map fst snd all_some option_map]. rewrite U. cbn [est_minus est_small orb].
    replace (RtoC 0 - RtoC (0 - 3)) with (RtoC 3) by (apply Ceq; simpl; ring).
    do 2 f_equal. rewrite Cmod_R. apply Rleb_false. replace (0 - 3)%R with (- (3))%R by ring. rewrite Rabs_Ropp, Rabs_pos_eq; lra. }
  assert (B2 : ea_body cs (polyder_coeffs cs) (eps64 * 10) default_tol [(Some (RtoC 3), false)] = [(Some (RtoC 3), true)]).
  { rewrite ea_body_map. unfold step1, upd_of. cbn [map fst snd all_some option_map]. rewrite U. cbn [est_minus est_small orb].
    replace (RtoC 3 - RtoC (3 - 3)) with (RtoC 3) by (apply Ceq; simpl; ring).
    do 2 f_equal. rewrite Cmod_R. apply Rleb_true. replace (3 - 3)%R with 0%R by ring. rewrite Rabs_R0; lra. }
  exists [(Some (RtoC 3), true)]. split; [|reflexivity].
  cbn [ea_loop forallb snd andb]. rewrite B1. cbn [forallb snd andb]. rewrite B2. reflexivity.
Qed.
