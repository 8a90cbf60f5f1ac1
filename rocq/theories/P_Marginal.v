(** Proofs about the marginal likelihoods. *)
From Coq Require Import Reals List Bool Arith Lia Lra.
From Coquelicot Require Import Coquelicot.
From Verif Require Import Base_R Base_List Base_Int M_Likelihood S_Integral S_Likelihood P_Gauss.
Import ListNotations.
Local Open Scope R_scope.

(** * integrals *)
Lemma improper2_ext f g v : (forall x y, f x y = g x y) -> improper2 f v -> improper2 g v.
Proof.
  intros H (h & A & B). exists h. split; [|exact B]. intros x. apply (improper_ext (f x)); [apply H|apply A].
Qed.
Lemma improper2_scal f v c : improper2 f v -> improper2 (fun x y => c * f x y) (c * v).
Proof.
  intros (h & A & B). exists (fun x => c * h x). split.
  - intros x. apply improper_scal, A.
  - apply improper_scal, B.
Qed.
Lemma improper2_shift f v c d : improper2 f v -> improper2 (fun x y => f (x - c) (y - d)) v.
Proof.
  intros (h & A & B). exists (fun x => h (x - c)). split.
  - intros x. pose proof (improper_lin (f (x - c)) (h (x - c)) 1 (- d) Rlt_0_1 (A (x - c))) as L.
    replace (h (x - c) / 1) with (h (x - c)) in L by field. revert L. apply improper_ext. intros y. f_equal. ring.
  - pose proof (improper_lin h v 1 (- c) Rlt_0_1 B) as L. replace (v / 1) with v in L by field.
    revert L. apply improper_ext. intros x. f_equal. ring.
Qed.
Lemma improper2_unique f v w : improper2 f v -> improper2 f w -> v = w.
Proof.
  intros (g & A & B) (h & A' & B'). apply (improper_unique g); [exact B|].
  apply (improper_ext h); [|exact B']. intros x. apply (improper_unique (f x)); [apply A'|apply A].
Qed.
Definition form2 c b1 b2 a11 a12 a22 x y : R := c - 2 * (b1 * x + b2 * y) + a11 * (x * x) + 2 * a12 * (x * y) + a22 * (y * y).
Lemma gauss2 c b1 b2 a11 a12 a22 : 0 < a22 -> 0 < a11 * a22 - a12 * a12 ->
  let D := a11 * a22 - a12 * a12 in
  improper2 (fun x y => exp (- form2 c b1 b2 a11 a12 a22 x y / 2))
    (2 * PI / sqrt D * exp (- (c - (b1 * ((a22 * b1 - a12 * b2) / D) + b2 * ((a11 * b2 - a12 * b1) / D))) / 2)).
Proof.
  intros H2 HD D. pose proof PI_RGT_0 as HP.
  set (K := sqrt (2 * PI / a22)).
  exists (fun x => exp (- (c - 2 * b1 * x + a11 * (x * x)) / 2) * (K * exp ((b2 - a12 * x) * (b2 - a12 * x) / a22 / 2))).
  split.
  - intros x. pose proof (gauss_quad a22 (b2 - a12 * x) H2) as G.
    apply (improper_scal _ _ (exp (- (c - 2 * b1 * x + a11 * (x * x)) / 2))) in G.
    revert G. apply improper_ext. intros y. rewrite <- exp_plus. f_equal. unfold form2. field.
  - set (al := D / a22). set (be := b1 - a12 * b2 / a22).
    assert (Hal : 0 < al) by (apply Rdiv_lt_0_compat; assumption).
    pose proof (gauss_quad al be Hal) as G.
    apply (improper_scal _ _ (K * exp (- c / 2 + b2 * b2 / a22 / 2))) in G.
    match type of G with improper _ ?v => match goal with |- improper _ ?w => replace w with v end end.
    + revert G. apply improper_ext. intros x.
      transitivity (K * (exp (- c / 2 + b2 * b2 / a22 / 2) * exp (- (al * (x * x) - 2 * be * x) / 2))); [ring|].
      transitivity (K * (exp (- (c - 2 * b1 * x + a11 * (x * x)) / 2) * exp ((b2 - a12 * x) * (b2 - a12 * x) / a22 / 2))); [|ring].
      f_equal. rewrite <- !exp_plus. f_equal. unfold al, be, D. field. lra.
    + transitivity (K * sqrt (2 * PI / al) * (exp (- c / 2 + b2 * b2 / a22 / 2) * exp (be * be / al / 2))); [ring|].
      f_equal.
      * unfold K. rewrite <- sqrt_mult_alt by (apply Rlt_le, Rdiv_lt_0_compat; lra).
        replace (2 * PI / a22 * (2 * PI / al)) with ((2 * PI) * (2 * PI) / D) by (unfold al; fold D in HD; field; lra).
        rewrite sqrt_div_alt by exact HD. rewrite sqrt_square by lra. reflexivity.
      * rewrite <- exp_plus. f_equal. unfold be, al. unfold D in *. field. lra.
Qed.

(** * diagonal case *)
Definition wsum (u v s2 : list R) : R := dot u (map (fun p => fst p / snd p) (combine v s2)).
Lemma wsum_cons a u b v s t : wsum (a :: u) (b :: v) (s :: t) = a * (b / s) + wsum u v t.
Proof. reflexivity. Qed.
Lemma wsum_sym u : forall v s2, wsum u v s2 = wsum v u s2.
Proof.
  induction u as [|a u IH]; intros [|b v] [|s t]; try reflexivity.
  rewrite !wsum_cons, IH. unfold Rdiv. ring.
Qed.
Definition prodpdf (s2 : list R) : R := sumR (map (fun v => ln (2 * PI * v)) s2).
Lemma normal_pdf_exp m v x : 0 < v ->
  normal_pdf m v x = exp (- ln (2 * PI * v) / 2) * exp (- ((x - m) * (x - m)) / (2 * v)).
Proof.
  intros Hv. pose proof PI_RGT_0 as HP. assert (P : 0 < 2 * PI * v) by (apply Rmult_lt_0_compat; lra).
  unfold normal_pdf. rewrite (Rmult_comm (exp (- ln (2 * PI * v) / 2))). apply Rmult_eq_compat_l.
  replace (- ln (2 * PI * v) / 2) with (- (/ 2 * ln (2 * PI * v))) by field.
  rewrite exp_Ropp. f_equal. rewrite <- Rpower_sqrt by exact P. reflexivity.
Qed.
Lemma data_pdf_form flux : forall M s2 fs fb, length M = length flux -> length s2 = length flux ->
  (forall v, In v s2 -> 0 < v) ->
  data_pdf flux M s2 fs fb =
  exp (- prodpdf s2 / 2) *
  exp (- form2 (wsum flux flux s2) (wsum (map fst M) flux s2) (wsum (map snd M) flux s2)
        (wsum (map fst M) (map fst M) s2) (wsum (map fst M) (map snd M) s2) (wsum (map snd M) (map snd M) s2) fs fb / 2).
Proof.
  induction flux as [|f flux IH]; intros [|[m k] M] [|v s2] fs fb L1 L2 H; try discriminate.
  - cbn. unfold prodpdf, form2. cbn. rewrite <- exp_plus. replace (- (0) / 2 + _) with 0; [symmetry; apply exp_0|field].
  - cbn [data_pdf map fst snd]. rewrite IH; [|simpl in *; lia|simpl in *; lia|intros; apply H; right; assumption].
    rewrite !wsum_cons.
    assert (Hv : 0 < v) by (apply H; left; reflexivity). pose proof PI_RGT_0 as HP.
    rewrite normal_pdf_exp by exact Hv. rewrite <- !exp_plus. f_equal. unfold form2, prodpdf. cbn [map sumR]. field. lra.
Qed.
Lemma wsum_nonneg u : forall s2, (forall v, In v s2 -> 0 < v) -> 0 <= wsum u u s2.
Proof.
  induction u as [|a u IH]; intros [|s t] H; try (cbn; lra).
  rewrite wsum_cons. assert (0 < s) by (apply H; left; reflexivity).
  assert (0 <= wsum u u t) by (apply IH; intros; apply H; right; assumption).
  assert (0 <= a * (a / s)). { replace (a * (a / s)) with ((a * a) * / s) by (unfold Rdiv; ring).
    apply Rmult_le_pos; [nra|apply Rlt_le, Rinv_0_lt_compat; assumption]. } lra.
Qed.
Lemma wsum_lin u : forall v s2 x y, length u = length s2 -> length v = length s2 ->
  wsum (map (fun p => x * fst p + y * snd p) (combine u v)) (map (fun p => x * fst p + y * snd p) (combine u v)) s2 =
  x * x * wsum u u s2 + 2 * x * y * wsum u v s2 + y * y * wsum v v s2.
Proof.
  induction u as [|a u IH]; intros [|b v] [|s t] x y L1 L2; try discriminate.
  - cbn. ring.
  - cbn [combine map fst snd]. rewrite !wsum_cons, IH by (simpl in *; lia). unfold Rdiv. ring.
Qed.
Lemma wsum_cs u v s2 : length u = length s2 -> length v = length s2 -> (forall x, In x s2 -> 0 < x) ->
  wsum u v s2 * wsum u v s2 <= wsum u u s2 * wsum v v s2.
Proof.
  intros L1 L2 H.
  assert (Q : forall x y, 0 <= x * x * wsum u u s2 + 2 * x * y * wsum u v s2 + y * y * wsum v v s2).
  { intros x y. rewrite <- wsum_lin by assumption. apply wsum_nonneg; exact H. }
  pose proof (wsum_nonneg u s2 H) as P1. pose proof (wsum_nonneg v s2 H) as P2.
  set (A := wsum u u s2) in *. set (B := wsum u v s2) in *. set (D := wsum v v s2) in *.
  destruct (Req_dec A 0) as [e|n].
  - destruct (Req_dec B 0) as [eb|nb]; [rewrite eb; nra|exfalso].
    specialize (Q (- (D + 1) / (2 * B)) 1). rewrite e in Q.
    replace (- (D + 1) / (2 * B) * (- (D + 1) / (2 * B)) * 0 + 2 * (- (D + 1) / (2 * B)) * 1 * B + 1 * 1 * D) with (-1) in Q by (field; exact nb). lra.
  - specialize (Q (- B) A). assert (0 < A) by lra.
    assert (E : - B * - B * A + 2 * - B * A * B + A * A * D = A * (A * D - B * B)) by ring. rewrite E in Q.
    assert (0 <= A * D - B * B); [|lra]. apply (Rmult_le_reg_l A); [assumption|]. lra.
Qed.
Lemma ln_exp_prod s2 : sumR (map (fun v => ln (2 * PI * v)) s2) = INR (length s2) * ln (2 * PI) + sumR (map ln s2) \/ exists v, In v s2 /\ v <= 0.
Proof.
  induction s2 as [|v t IH]; [left; cbn; ring|].
  destruct (Rlt_le_dec 0 v) as [H|H]; [|right; exists v; split; [left; reflexivity|exact H]].
  destruct IH as [IH|(w & A & B)]; [|right; exists w; split; [right; exact A|exact B]].
  left. cbn [map sumR]. rewrite IH. pose proof PI_RGT_0. rewrite ln_mult by lra. cbn [length]. rewrite S_INR. ring.
Qed.
Lemma prodpdf_val s2 : (forall v, In v s2 -> 0 < v) -> prodpdf s2 = INR (length s2) * ln (2 * PI) + sumR (map ln s2).
Proof. intros H. destruct (ln_exp_prod s2) as [E|(v & A & B)]; [exact E|]. specialize (H v A). lra. Qed.
Lemma nll_value flux M s2 sfs sfb :
  let u0 := map fst M in let u1 := map snd M in
  let a11 := / sfs + wsum u0 u0 s2 in let a22 := / sfb + wsum u1 u1 s2 in let a12 := wsum u0 u1 s2 in
  let b1 := wsum u0 flux s2 in let b2 := wsum u1 flux s2 in
  let D := a11 * a22 - a12 * a12 in
  D <> 0 ->
  nll_ulens flux M s2 sfs sfb = / 2 * ((wsum flux flux s2 - (b1 * ((a22 * b1 - a12 * b2) / D) + b2 * ((a11 * b2 - a12 * b1) / D)))
     + sumR (map ln s2) + (ln sfs + ln sfb) + ln D).
Proof.
  intros u0 u1 a11 a22 a12 b1 b2 D HD. unfold nll_ulens. replace 0.5 with (/ 2) by lra.
  fold u0 u1. 
  change (dot u0 (map (fun p => fst p / snd p) (combine u0 s2))) with (wsum u0 u0 s2).
  change (dot u1 (map (fun p => fst p / snd p) (combine u1 s2))) with (wsum u1 u1 s2).
  change (dot u0 (map (fun p => fst p / snd p) (combine u1 s2))) with (wsum u0 u1 s2).
  change (dot u0 (map (fun p => fst p / snd p) (combine flux s2))) with (wsum u0 flux s2).
  change (dot u1 (map (fun p => fst p / snd p) (combine flux s2))) with (wsum u1 flux s2).
  change (dot flux (map (fun p => fst p / snd p) (combine flux s2))) with (wsum flux flux s2).
  replace (1 / sfs) with (/ sfs) by (unfold Rdiv; ring). replace (1 / sfb) with (/ sfb) by (unfold Rdiv; ring).
  fold a11 a22 a12 b1 b2. fold D. do 4 f_equal. field. exact HD.
Qed.
Lemma normal_matrix M s2 sfs sfb : length M = length s2 -> (forall v, In v s2 -> 0 < v) -> 0 < sfs -> 0 < sfb ->
  let u0 := map fst M in let u1 := map snd M in
  let a11 := / sfs + wsum u0 u0 s2 in let a22 := / sfb + wsum u1 u1 s2 in let a12 := wsum u0 u1 s2 in
  0 < a11 /\ 0 < a22 /\ / (sfs * sfb) <= a11 * a22 - a12 * a12.
Proof.
  intros L H P1 P2 u0 u1 a11 a22 a12.
  assert (L0 : length u0 = length s2) by (unfold u0; rewrite map_length; exact L).
  assert (L1 : length u1 = length s2) by (unfold u1; rewrite map_length; exact L).
  pose proof (wsum_cs u0 u1 s2 L0 L1 H). pose proof (wsum_nonneg u0 s2 H). pose proof (wsum_nonneg u1 s2 H).
  assert (I1 : 0 < / sfs) by (apply Rinv_0_lt_compat; exact P1). assert (I2 : 0 < / sfb) by (apply Rinv_0_lt_compat; exact P2).
  unfold a11, a22, a12. split; [lra|]. split; [lra|]. rewrite Rinv_mult. nra.
Qed.
Lemma marginal_diag flux M s2 sfs sfb : length M = length flux -> length s2 = length flux ->
  (forall v, In v s2 -> 0 < v) -> 0 < sfs -> 0 < sfb ->
  exists Z, 0 < Z /\
    improper2 (fun fs fb => data_pdf flux M s2 fs fb * (normal_pdf 0 sfs fs * normal_pdf 0 sfb fb)) Z /\
    nll_ulens flux M s2 sfs sfb = - ln Z - INR (length flux) / 2 * ln (2 * PI).
Proof.
  intros L1 L2 H P1 P2. assert (LM : length M = length s2) by congruence.
  destruct (normal_matrix M s2 sfs sfb LM H P1 P2) as (A1 & A2 & A3).
  set (u0 := map fst M) in *. set (u1 := map snd M) in *.
  set (a11 := / sfs + wsum u0 u0 s2) in *. set (a22 := / sfb + wsum u1 u1 s2) in *. set (a12 := wsum u0 u1 s2) in *.
  set (b1 := wsum u0 flux s2). set (b2 := wsum u1 flux s2). set (c := wsum flux flux s2).
  assert (HD : 0 < a11 * a22 - a12 * a12).
  { assert (0 < / (sfs * sfb)) by (apply Rinv_0_lt_compat, Rmult_lt_0_compat; assumption). lra. }
  pose proof (gauss2 c b1 b2 a11 a12 a22 A2 HD) as G. cbv zeta in G. set (D := a11 * a22 - a12 * a12) in *.
  pose proof PI_RGT_0 as HP.
  assert (Q1 : 0 < 2 * PI * sfs) by (apply Rmult_lt_0_compat; lra).
  assert (Q2 : 0 < 2 * PI * sfb) by (apply Rmult_lt_0_compat; lra).
  set (K := exp (- prodpdf s2 / 2) * exp (- ln (2 * PI * sfs) / 2) * exp (- ln (2 * PI * sfb) / 2)).
  set (q := c - (b1 * ((a22 * b1 - a12 * b2) / D) + b2 * ((a11 * b2 - a12 * b1) / D))) in *.
  exists (K * (2 * PI / sqrt D * exp (- q / 2))).
  assert (SD : 0 < sqrt D) by (apply sqrt_lt_R0; exact HD).
  assert (PK : 0 < K) by (unfold K; repeat apply Rmult_lt_0_compat; apply exp_pos).
  assert (PR : 0 < 2 * PI / sqrt D) by (apply Rdiv_lt_0_compat; lra).
  split; [|split].
  - apply Rmult_lt_0_compat; [exact PK|]. apply Rmult_lt_0_compat; [exact PR|apply exp_pos].
  - apply (improper2_scal _ _ K) in G. revert G. apply improper2_ext. intros fs fb.
    rewrite (data_pdf_form flux M s2 fs fb L1 L2 H). fold u0 u1. fold b1 b2 c a12.
    rewrite (normal_pdf_exp 0 sfs fs P1), (normal_pdf_exp 0 sfb fb P2), !Rminus_0_r. unfold K. rewrite <- !exp_plus. f_equal.
    unfold form2, a11, a22. field. lra.
  - rewrite nll_value by (fold u0 u1; fold a11 a22 a12; fold D; lra). fold u0 u1. fold a11 a22 a12 b1 b2 c. fold D. fold q.
    rewrite ln_mult; [|exact PK|apply Rmult_lt_0_compat; [exact PR|apply exp_pos]].
    rewrite ln_mult; [|exact PR|apply exp_pos].
    assert (LP : ln (2 * PI / sqrt D) = ln (2 * PI) - ln (sqrt D)).
    { unfold Rdiv. rewrite ln_mult; [|lra|apply Rinv_0_lt_compat; exact SD]. rewrite ln_Rinv by exact SD. ring. }
    rewrite LP, ln_exp.
    assert (LK : ln K = - prodpdf s2 / 2 + - ln (2 * PI * sfs) / 2 + - ln (2 * PI * sfb) / 2).
    { unfold K. rewrite <- !exp_plus. apply ln_exp. }
    rewrite LK, (prodpdf_val s2 H), (ln_mult (2 * PI) sfs), (ln_mult (2 * PI) sfb) by lra. rewrite <- L2.
    assert (LS : ln (sqrt D) = ln D / 2).
    { rewrite <- Rpower_sqrt by exact HD. unfold Rpower. rewrite ln_exp. field. }
    rewrite LS. field.
Qed.
Lemma mahal_nonneg c b1 b2 a11 a12 a22 : 0 < a22 -> 0 < a11 * a22 - a12 * a12 ->
  (forall x y, 0 <= form2 c b1 b2 a11 a12 a22 x y) ->
  0 <= c - (b1 * ((a22 * b1 - a12 * b2) / (a11 * a22 - a12 * a12)) + b2 * ((a11 * b2 - a12 * b1) / (a11 * a22 - a12 * a12))).
Proof.
  intros H2 HD F. set (D := a11 * a22 - a12 * a12) in *.
  specialize (F ((a22 * b1 - a12 * b2) / D) ((a11 * b2 - a12 * b1) / D)).
  match goal with |- 0 <= ?x => replace x with (form2 c b1 b2 a11 a12 a22 ((a22 * b1 - a12 * b2) / D) ((a11 * b2 - a12 * b1) / D)); [exact F|] end.
  unfold form2, D in *. field. lra.
Qed.
