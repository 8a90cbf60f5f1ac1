(** Proofs about the weighted straight-line fit. *)
From Coq Require Import Reals List Bool Arith Lia Lra.
From Verif Require Import Base_R Base_List M_Likelihood S_Likelihood.
Import ListNotations.
Local Open Scope R_scope.

Fixpoint psum (f : R * R * R -> R) (pts : list (R * R * R)) : R :=
  match pts with [] => 0 | p :: t => f p + psum f t end.
Definition pw (p : R * R * R) := fst (fst p).
Definition px (p : R * R * R) := snd (fst p).
Definition py (p : R * R * R) := snd p.
Definition Sw := psum pw.
Definition Sx := psum (fun p => pw p * px p).
Definition Sy := psum (fun p => pw p * py p).
Definition Sxx := psum (fun p => pw p * px p * px p).
Definition Sxy := psum (fun p => pw p * px p * py p).
Definition Syy := psum (fun p => pw p * py p * py p).
Definition Det pts := Sw pts * Sxx pts - Sx pts * Sx pts.

Lemma chi2_expand pts a b : chi2_of pts a b =
  Syy pts - 2 * a * Sy pts - 2 * b * Sxy pts + a * a * Sw pts + 2 * a * b * Sx pts + b * b * Sxx pts.
Proof.
  unfold Syy, Sy, Sxy, Sw, Sx, Sxx, pw, px, py.
  induction pts as [|[[w x] y] t IH]; [simpl; ring|]. cbn [chi2_of psum fst snd]. rewrite IH. ring.
Qed.
Lemma centred pts c : psum (fun p => pw p * (px p - c) ^ 2) pts = Sxx pts - 2 * c * Sx pts + c * c * Sw pts.
Proof.
  unfold Sw, Sx, Sxx, pw, px, py.
  induction pts as [|[[w x] y] t IH]; [simpl; ring|]. cbn [psum fst snd]. rewrite IH. ring.
Qed.
Lemma psum_nonneg f pts : (forall p, In p pts -> 0 <= f p) -> 0 <= psum f pts.
Proof.
  intros H. induction pts as [|p t IH]; simpl; [lra|].
  assert (0 <= f p) by (apply H; left; reflexivity).
  assert (0 <= psum f t) by (apply IH; intros; apply H; right; assumption). lra.
Qed.
Lemma psum_pos f pts p : (forall q, In q pts -> 0 <= f q) -> In p pts -> 0 < f p -> 0 < psum f pts.
Proof.
  intros H Hp P. induction pts as [|q t IH]; [contradiction|]. simpl.
  assert (Q : 0 <= psum f t) by (apply psum_nonneg; intros; apply H; right; assumption).
  assert (Q0 : 0 <= f q) by (apply H; left; reflexivity).
  destruct Hp as [->|Hp]; [lra|]. assert (0 < psum f t) by (apply IH; [intros; apply H; right; assumption|exact Hp]). lra.
Qed.
Lemma Sw_pos pts p : (forall q, In q pts -> 0 < pw q) -> In p pts -> 0 < Sw pts.
Proof. intros H Hp. apply (psum_pos pw pts p); [intros; apply Rlt_le, H; assumption|exact Hp|apply H; exact Hp]. Qed.
Lemma Det_pos pts p q : (forall r, In r pts -> 0 < pw r) -> In p pts -> In q pts -> px p <> px q -> 0 < Det pts.
Proof.
  intros H Hp Hq N. pose proof (Sw_pos pts p H Hp) as W.
  set (c := Sx pts / Sw pts).
  assert (K : 0 < psum (fun p => pw p * (px p - c) ^ 2) pts).
  { assert (NN : forall r, In r pts -> 0 <= pw r * (px r - c) ^ 2).
    { intros r Hr. apply Rmult_le_pos; [apply Rlt_le, H; exact Hr|apply pow2_ge_0]. }
    assert (P : forall r, In r pts -> px r <> c -> 0 < pw r * (px r - c) ^ 2).
    { intros r Hr Nr. apply Rmult_lt_0_compat; [apply H; exact Hr|]. apply Rsqr_pos_lt in Nr || idtac.
      assert (px r - c <> 0) by lra. apply Rsqr_pos_lt in H0. unfold Rsqr in H0. simpl. lra. }
    destruct (Req_dec (px p) c) as [e|n].
    - apply (psum_pos _ pts q NN Hq). apply P; [exact Hq|congruence].
    - apply (psum_pos _ pts p NN Hp). apply P; assumption. }
  rewrite centred in K. unfold Det.
  assert (E : Sw pts * (Sxx pts - 2 * c * Sx pts + c * c * Sw pts) = Sw pts * Sxx pts - Sx pts * Sx pts).
  { unfold c. field. lra. }
  rewrite <- E. apply Rmult_lt_0_compat; assumption.
Qed.
Definition best_a pts := (Sxx pts * Sy pts - Sx pts * Sxy pts) / Det pts.
Definition best_b pts := (Sw pts * Sxy pts - Sx pts * Sy pts) / Det pts.
Lemma chi2_excess pts a b : Det pts <> 0 ->
  chi2_of pts a b = chi2_of pts (best_a pts) (best_b pts) +
    (Sw pts * (a - best_a pts) ^ 2 + 2 * Sx pts * (a - best_a pts) * (b - best_b pts) + Sxx pts * (b - best_b pts) ^ 2).
Proof.
  intros D. assert (N1 : best_a pts * Sw pts + best_b pts * Sx pts = Sy pts).
  { unfold best_a, best_b, Det in *. field. exact D. }
  assert (N2 : best_a pts * Sx pts + best_b pts * Sxx pts = Sxy pts).
  { unfold best_a, best_b, Det in *. field. exact D. }
  rewrite !chi2_expand, <- N1, <- N2. ring.
Qed.
Lemma quad_pos w sx sxx u v : 0 < w -> 0 < w * sxx - sx * sx -> (u <> 0 \/ v <> 0) ->
  0 < w * u ^ 2 + 2 * sx * u * v + sxx * v ^ 2.
Proof.
  intros W D N.
  assert (E : w * (w * u ^ 2 + 2 * sx * u * v + sxx * v ^ 2) = (w * u + sx * v) ^ 2 + (w * sxx - sx * sx) * v ^ 2) by ring.
  apply (Rmult_lt_reg_l w); [exact W|]. rewrite Rmult_0_r, E.
  destruct (Req_dec v 0) as [->|Nv].
  - destruct N as [N|N]; [|lra]. assert (w * u <> 0) by (apply Rmult_integral_contrapositive; split; lra).
    pose proof (Rsqr_pos_lt _ H). unfold Rsqr in *. simpl. nra.
  - pose proof (Rsqr_pos_lt _ Nv). unfold Rsqr in *. pose proof (pow2_ge_0 (w * u + sx * v)).
    assert (0 < (w * sxx - sx * sx) * v ^ 2) by (apply Rmult_lt_0_compat; [exact D|simpl; lra]). lra.
Qed.

(** link to the model *)
Lemma weight_doc e : fit_weight e = doc_weight e.
Proof.
  unfold fit_weight, doc_weight. destruct (Rltb_spec 0 e); destruct (Rlt_dec 0 e); try lra; try reflexivity.
  unfold Rdiv. rewrite Rmult_1_l. f_equal. ring.
Qed.
Lemma doc_weight_pos e : 0 < doc_weight e.
Proof. unfold doc_weight. destruct (Rlt_dec 0 e); [|lra]. apply Rinv_0_lt_compat. apply Rmult_lt_0_compat; assumption. Qed.
Fixpoint zip3 (wt xs ys : list R) : list (R * R * R) :=
  match wt, xs, ys with w :: a, x :: b, y :: c => (w, x, y) :: zip3 a b c | _, _, _ => [] end.
Lemma points_zip3 es : forall xs ys, points es xs ys = zip3 (map doc_weight es) xs ys.
Proof. induction es as [|e es IH]; intros [|x xs] [|y ys]; try reflexivity. simpl. f_equal. apply IH. Qed.
Lemma fit_sums wt : forall xs ys, length wt = length xs -> length xs = length ys ->
  sumR wt = Sw (zip3 wt xs ys) /\
  sumR (map (fun p => fst p * snd p) (combine wt xs)) = Sx (zip3 wt xs ys) /\
  sumR (map (fun p => fst p * snd p) (combine wt ys)) = Sy (zip3 wt xs ys) /\
  sumR (map (fun p => fst p * snd p * snd p) (combine wt xs)) = Sxx (zip3 wt xs ys) /\
  sumR (map (fun p => fst p * fst (snd p) * snd (snd p)) (combine wt (combine xs ys))) = Sxy (zip3 wt xs ys) /\
  forall a b, sumR (map (fun p => fst p * (snd (snd p) - a - b * fst (snd p)) ^ 2) (combine wt (combine xs ys))) =
    chi2_of (zip3 wt xs ys) a b.
Proof.
  induction wt as [|w wt IH]; intros [|x xs] [|y ys] L1 L2; try discriminate.
  - simpl. repeat split; reflexivity.
  - destruct (IH xs ys) as (A & B & D & E & F & G); [simpl in *; lia|simpl in *; lia|].
    unfold Sw, Sx, Sy, Sxx, Sxy in *. cbn [combine map sumR zip3 psum chi2_of fst snd pw px py] in *.
    rewrite A, B, D, E, F. split; [reflexivity|]. split; [reflexivity|]. split; [reflexivity|].
    split; [reflexivity|]. split; [reflexivity|]. intros a b. rewrite G. f_equal. f_equal. f_equal. ring.
Qed.
Lemma zip3_in wt : forall xs ys i, (i < length wt)%nat -> (i < length xs)%nat -> (i < length ys)%nat ->
  In (nth i wt 0, nth i xs 0, nth i ys 0) (zip3 wt xs ys).
Proof.
  induction wt as [|w wt IH]; intros [|x xs] [|y ys] [|i]; simpl; try lia; intros.
  - left; reflexivity.
  - right. apply IH; lia.
Qed.
Lemma zip3_pw wt : forall xs ys p, In p (zip3 wt xs ys) -> In (pw p) wt.
Proof.
  induction wt as [|w wt IH]; intros [|x xs] [|y ys] p; simpl; try contradiction.
  intros [<-|H]; [left; reflexivity|right; eapply IH; exact H].
Qed.

Lemma array_fit xs ys errs i j :
  length xs = length ys -> length errs = length xs ->
  (i < length xs)%nat -> (j < length xs)%nat -> nth i xs 0 <> nth j xs 0 ->
  exists f be ae, linear_chi2 xs ys (ErrArray errs) = Ok (Some f) /\ fit_be f = Some be /\ fit_ae f = Some ae /\
    0 < be /\ 0 < ae /\
    fit_chi2 f = chi2_of (points errs xs ys) (fit_a f) (fit_b f) /\
    (forall a b, (a, b) <> (fit_a f, fit_b f) -> fit_chi2 f < chi2_of (points errs xs ys) a b) /\
    (forall s, s = 1 \/ s = -1 ->
      (forall a, fit_chi2 f + 1 <= chi2_of (points errs xs ys) a (fit_b f + s * be)) /\
      (exists a, chi2_of (points errs xs ys) a (fit_b f + s * be) = fit_chi2 f + 1)) /\
    (forall s, s = 1 \/ s = -1 ->
      (forall b, fit_chi2 f + 1 <= chi2_of (points errs xs ys) (fit_a f + s * ae) b) /\
      (exists b, chi2_of (points errs xs ys) (fit_a f + s * ae) b = fit_chi2 f + 1)).
Proof.
  intros L1 L2 Hi Hj N.
  set (wt := map fit_weight errs).
  assert (Lw : length wt = length xs) by (unfold wt; rewrite map_length; exact L2).
  assert (PE : points errs xs ys = zip3 wt xs ys).
  { rewrite points_zip3. f_equal. unfold wt. apply map_ext. intros; symmetry; apply weight_doc. }
  set (pts := zip3 wt xs ys) in *.
  assert (PW : forall p, In p pts -> 0 < pw p).
  { intros p Hp. apply zip3_pw in Hp. unfold wt in Hp. apply in_map_iff in Hp. destruct Hp as (e & <- & _).
    rewrite weight_doc. apply doc_weight_pos. }
  assert (Ii : In (nth i wt 0, nth i xs 0, nth i ys 0) pts) by (apply zip3_in; lia).
  assert (Ij : In (nth j wt 0, nth j xs 0, nth j ys 0) pts) by (apply zip3_in; lia).
  pose proof (Det_pos pts _ _ PW Ii Ij N) as D. pose proof (Sw_pos pts _ PW Ii) as W.
  assert (Sxx0 : 0 < Sxx pts).
  { unfold Det in D. assert (0 < Sw pts * Sxx pts) by nra. apply (Rmult_lt_reg_l (Sw pts)); lra. }
  destruct (fit_sums wt xs ys Lw L1) as (A1 & A2 & A3 & A4 & A5 & A6). fold pts in A1, A2, A3, A4, A5, A6.
  exists {| fit_b := best_b pts; fit_be := Some (sqrt (Sw pts / Det pts)); fit_a := best_a pts;
            fit_ae := Some (sqrt (Sxx pts / Det pts)); fit_chi2 := chi2_of pts (best_a pts) (best_b pts) |},
    (sqrt (Sw pts / Det pts)), (sqrt (Sxx pts / Det pts)).
  cbn [fit_a fit_b fit_be fit_ae fit_chi2]. rewrite PE.
  assert (Q1 : 0 < Sw pts / Det pts) by (apply Rdiv_lt_0_compat; assumption).
  assert (Q2 : 0 < Sxx pts / Det pts) by (apply Rdiv_lt_0_compat; assumption).
  split; [|split; [reflexivity|split; [reflexivity|split; [apply sqrt_lt_R0; exact Q1|split; [apply sqrt_lt_R0; exact Q2|split; [reflexivity|split]]]]]].
  - unfold linear_chi2. rewrite L1, Nat.eqb_refl. cbn [negb]. rewrite <- L1, L2, Nat.eqb_refl. cbn [negb]. fold wt.
    f_equal. unfold linear_fit. rewrite A1, A2, A3, A4, A5. fold (Det pts).
    destruct (Reqb_spec (Det pts) 0); [lra|]. fold (best_a pts). fold (best_b pts). rewrite A6. unfold osqrt.
    destruct (Rleb_spec 0 (Sw pts / Det pts)); [|lra]. destruct (Rleb_spec 0 (Sxx pts / Det pts)); [|lra]. reflexivity.
  - intros a b Nab. rewrite (chi2_excess pts a b) by lra.
    assert (0 < Sw pts * (a - best_a pts) ^ 2 + 2 * Sx pts * (a - best_a pts) * (b - best_b pts) + Sxx pts * (b - best_b pts) ^ 2); [|lra].
    apply quad_pos; [exact W|exact D|].
    destruct (Req_dec a (best_a pts)); [|left; lra]. destruct (Req_dec b (best_b pts)); [|right; lra].
    exfalso. apply Nab. congruence.
  - split.
    + intros s Hs. set (be := sqrt (Sw pts / Det pts)).
      assert (B2 : (s * be) ^ 2 = Sw pts / Det pts).
      { replace ((s * be) ^ 2) with (s * s * (be * be)) by ring. unfold be. rewrite sqrt_sqrt by lra.
        destruct Hs as [->| ->]; ring. }
      assert (B3 : Sw pts * (Sxx pts * (s * be) ^ 2) - (Sx pts * (s * be)) ^ 2 = Sw pts).
      { replace ((Sx pts * (s * be)) ^ 2) with (Sx pts * Sx pts * (s * be) ^ 2) by ring. rewrite B2.
        replace (Sw pts * (Sxx pts * (Sw pts / Det pts)) - Sx pts * Sx pts * (Sw pts / Det pts)) with (Sw pts / Det pts * (Sw pts * Sxx pts - Sx pts * Sx pts)) by (field; lra).
        fold (Det pts). field. lra. }
      split.
      * intros a. rewrite (chi2_excess pts a) by lra. set (u := a - best_a pts).
        replace (best_b pts + s * be - best_b pts) with (s * be) by ring.
        assert (1 <= Sw pts * u ^ 2 + 2 * Sx pts * u * (s * be) + Sxx pts * (s * be) ^ 2); [|lra].
        apply (Rmult_le_reg_l (Sw pts)); [exact W|].
        replace (Sw pts * (Sw pts * u ^ 2 + 2 * Sx pts * u * (s * be) + Sxx pts * (s * be) ^ 2)) with
          ((Sw pts * u + Sx pts * (s * be)) ^ 2 + (Sw pts * (Sxx pts * (s * be) ^ 2) - (Sx pts * (s * be)) ^ 2)) by ring.
        rewrite B3. pose proof (pow2_ge_0 (Sw pts * u + Sx pts * (s * be))). lra.
      * exists (best_a pts - Sx pts * (s * be) / Sw pts). rewrite (chi2_excess pts _ (best_b pts + s * be)) by lra.
        replace (best_b pts + s * be - best_b pts) with (s * be) by ring. f_equal.
        replace (best_a pts - Sx pts * (s * be) / Sw pts - best_a pts) with (- (Sx pts * (s * be) / Sw pts)) by ring.
        transitivity ((Sw pts * (Sxx pts * (s * be) ^ 2) - (Sx pts * (s * be)) ^ 2) / Sw pts); [field; lra|].
        rewrite B3. field. lra.
    + intros s Hs. set (ae := sqrt (Sxx pts / Det pts)).
      assert (B2 : (s * ae) ^ 2 = Sxx pts / Det pts).
      { replace ((s * ae) ^ 2) with (s * s * (ae * ae)) by ring. unfold ae. rewrite sqrt_sqrt by lra.
        destruct Hs as [->| ->]; ring. }
      assert (B3 : Sxx pts * (Sw pts * (s * ae) ^ 2) - (Sx pts * (s * ae)) ^ 2 = Sxx pts).
      { replace ((Sx pts * (s * ae)) ^ 2) with (Sx pts * Sx pts * (s * ae) ^ 2) by ring. rewrite B2.
        replace (Sxx pts * (Sw pts * (Sxx pts / Det pts)) - Sx pts * Sx pts * (Sxx pts / Det pts)) with (Sxx pts / Det pts * (Sw pts * Sxx pts - Sx pts * Sx pts)) by (field; lra).
        fold (Det pts). field. lra. }
      split.
      * intros b. rewrite (chi2_excess pts _ b) by lra. set (u := b - best_b pts).
        replace (best_a pts + s * ae - best_a pts) with (s * ae) by ring.
        assert (1 <= Sw pts * (s * ae) ^ 2 + 2 * Sx pts * (s * ae) * u + Sxx pts * u ^ 2); [|lra].
        apply (Rmult_le_reg_l (Sxx pts)); [exact Sxx0|].
        replace (Sxx pts * (Sw pts * (s * ae) ^ 2 + 2 * Sx pts * (s * ae) * u + Sxx pts * u ^ 2)) with
          ((Sxx pts * u + Sx pts * (s * ae)) ^ 2 + (Sxx pts * (Sw pts * (s * ae) ^ 2) - (Sx pts * (s * ae)) ^ 2)) by ring.
        rewrite B3. pose proof (pow2_ge_0 (Sxx pts * u + Sx pts * (s * ae))). lra.
      * exists (best_b pts - Sx pts * (s * ae) / Sxx pts). rewrite (chi2_excess pts (best_a pts + s * ae)) by lra.
        replace (best_a pts + s * ae - best_a pts) with (s * ae) by ring. f_equal.
        replace (best_b pts - Sx pts * (s * ae) / Sxx pts - best_b pts) with (- (Sx pts * (s * ae) / Sxx pts)) by ring.
        transitivity ((Sxx pts * (Sw pts * (s * ae) ^ 2) - (Sx pts * (s * ae)) ^ 2) / Sxx pts); [field; lra|].
        rewrite B3. field. lra.
Qed.
(** all x equal: no fit *)
Lemma degenerate_fit xs ys errs c : length xs = length ys -> length errs = length xs ->
  (forall x, In x xs -> x = c) -> linear_chi2 xs ys (ErrArray errs) = Ok None.
Proof.
  intros L1 L2 H. set (wt := map fit_weight errs).
  assert (Lw : length wt = length xs) by (unfold wt; rewrite map_length; exact L2).
  destruct (fit_sums wt xs ys Lw L1) as (A1 & A2 & A3 & A4 & A5 & A6).
  unfold linear_chi2. rewrite L1, Nat.eqb_refl. cbn [negb]. rewrite <- L1, L2, Nat.eqb_refl. cbn [negb]. fold wt.
  f_equal. unfold linear_fit. rewrite A1, A2, A4.
  destruct (Reqb_spec (Sw (zip3 wt xs ys) * Sxx (zip3 wt xs ys) - Sx (zip3 wt xs ys) * Sx (zip3 wt xs ys)) 0) as [_|n]; [reflexivity|].
  exfalso. apply n. clear - H.
  assert (G : Sx (zip3 wt xs ys) = c * Sw (zip3 wt xs ys) /\ Sxx (zip3 wt xs ys) = c * c * Sw (zip3 wt xs ys)).
  { revert xs ys H. unfold Sw, Sx, Sxx, pw, px. induction wt as [|w wt IH]; intros [|x xs] [|y ys] H; simpl; try (split; ring).
    destruct (IH xs ys) as [A B]. { intros; apply H; right; assumption. }
    rewrite A, B, (H x) by (left; reflexivity). split; ring. }
  destruct G as [-> ->]. ring.
Qed.
(** the scalar form *)
Lemma scalar_default xs ys : length xs = length ys -> linear_chi2_default xs ys = Raise ZeroDivisionError.
Proof.
  intros L. unfold linear_chi2_default, linear_chi2. rewrite L, Nat.eqb_refl. cbn [negb]. rewrite Reqb_refl. reflexivity.
Qed.
Lemma scalar_wrong : exists f, linear_chi2 [0; 1; 2] [1; 1; 1] (ErrScalar 1) = Ok (Some f) /\ fit_be f = None /\
  chi2_of (points [1; 1; 1] [0; 1; 2] [1; 1; 1]) 1 0 = 0 /\ fit_chi2 f = 15 / 2 /\
  fit_chi2 f = chi2_of (points [1; 1; 1] [0; 1; 2] [1; 1; 1]) (fit_a f) (fit_b f).
Proof.
  unfold linear_chi2. cbn [length Nat.eqb negb]. destruct (Reqb_spec 1 0); [lra|].
  assert (W : fit_weight 1 = 1).
  { rewrite weight_doc. unfold doc_weight. destruct (Rlt_dec 0 1); [|lra]. rewrite Rmult_1_l, Rinv_1. reflexivity. }
  rewrite W. unfold linear_fit. cbn [repeat combine map sumR fst snd].
  match goal with |- context [Reqb ?d 0] => replace d with (-4) by ring end.
  destruct (Reqb_spec (-4) 0); [lra|].
  eexists. split; [reflexivity|]. cbn [fit_be fit_chi2 fit_a fit_b].
  assert (DW : doc_weight 1 = 1) by (rewrite <- weight_doc; exact W).
  split; [|split; [|split]].
  - unfold osqrt. destruct (Rleb_spec 0 (1 / -4)); [lra|reflexivity].
  - cbn [points chi2_of]. rewrite DW. ring.
  - field.
  - cbn [points chi2_of]. rewrite DW. field.
Qed.
