(** Change of units in the likelihood with a full covariance matrix: properties C24 and C81. *)
From Coq Require Import Reals List Bool Arith Lia Lra.
From Verif Require Import Base_R Base_List M_Likelihood S_Integral S_Likelihood P_Gauss P_Marginal P_MarginalGen.
Import ListNotations.
Local Open Scope R_scope.

Definition times (k : R) (m : list (list R)) : list (list R) := map (map (Rmult k)) m.

Lemma times_entry k m i j : entry (times k m) i j = k * entry m i j.
Proof.
  unfold entry, times. change (@nil R) with (map (Rmult k) []) at 1. rewrite map_nth.
  replace 0 with (k * 0) at 1 by ring. apply map_nth.
Qed.
Lemma drop_map {A B} (f : A -> B) j l : drop_nth j (map f l) = map f (drop_nth j l).
Proof. unfold drop_nth. rewrite map_app, firstn_map, skipn_map. reflexivity. Qed.
Lemma sumR_scal_map {A} (k : R) (F G : A -> R) l : (forall x, F x = k * G x) -> sumR (map F l) = k * sumR (map G l).
Proof. intros H. unfold sumR. induction l as [|a l IH]; cbn [map fold_right]; [ring|]. rewrite IH, H. ring. Qed.
Lemma det_times k : forall n m, length m = n -> det n (times k m) = k ^ n * det n m.
Proof.
  induction n as [|n IH]; intros m L; destruct m as [|row m]; try discriminate; [cbn; ring|].
  cbn [times map det]. apply sumR_scal_map. intros j.
  replace (nth j (map (Rmult k) row) 0) with (k * nth j row 0)
    by (replace 0 with (k * 0) at 2 by ring; symmetry; apply map_nth).
  replace (map (drop_nth j) (map (map (Rmult k)) m)) with (times k (map (drop_nth j) m)).
  - rewrite IH by (rewrite map_length; cbn in L; lia). cbn [pow]. ring.
  - unfold times. rewrite !map_map. apply map_ext. intros r. symmetry. apply drop_map.
Qed.

Section units.
Variables (n : nat) (m p : list (list R)).
Hypothesis Hsym : symmetric m.
Hypothesis Hpd : pos_def m n.
Hypothesis Hinv : inverse_of m p n.
Lemma dot_sol_times k sol u v : k <> 0 -> solves (times k m) n sol -> length u = n -> length v = n ->
  dot u (sol v) = / k * B n p (fun i => nth i u 0) (fun i => nth i v 0).
Proof.
  intros Hk S Lu Lv. destruct (S v Lv) as [L E]. rewrite dot_isum by congruence. rewrite Lu. unfold B.
  rewrite <- isum_scal. apply isum_ext. intros i Hi.
  assert (Q : k * nth i (sol v) 0 = app_p n p (fun k => nth k v 0) i).
  { apply (sol_unique n m p Hpd Hinv (fun i => k * nth i (sol v) 0) (fun k => nth k v 0)); [|exact Hi].
    intros i0 Hi0. rewrite <- (E i0 Hi0). apply isum_ext. intros j _. rewrite times_entry. ring. }
  rewrite <- Q. field. exact Hk.
Qed.
End units.

(** a correct solver gives the inverse matrix *)
Definition unit_list (n j : nat) : list R := map (fun i => if Nat.eq_dec i j then 1 else 0) (seq 0 n).
Lemma unit_list_nth n j i : (i < n)%nat -> nth i (unit_list n j) 0 = if Nat.eq_dec i j then 1 else 0.
Proof.
  intros H. unfold unit_list. rewrite (nth_map_lt _ _ _ 0%nat) by (rewrite seq_length; exact H). rewrite seq_nth by exact H. reflexivity.
Qed.
Lemma solver_inverse m n sol : solves m n sol -> exists p, inverse_of m p n.
Proof.
  intros S. exists (map (fun i => map (fun j => nth i (sol (unit_list n j)) 0) (seq 0 n)) (seq 0 n)). split.
  - split; [rewrite map_length; apply seq_length|]. intros r H. apply in_map_iff in H. destruct H as (i & <- & _).
    rewrite map_length. apply seq_length.
  - intros i j Hi Hj. destruct (S (unit_list n j)) as (_ & E); [unfold unit_list; rewrite map_length; apply seq_length|].
    rewrite <- (unit_list_nth n j i Hi), <- (E i Hi). apply isum_ext. intros k Hk. f_equal. unfold entry.
    rewrite (nth_map_lt _ _ _ 0%nat) by (rewrite seq_length; exact Hk). rewrite (nth_map_lt _ _ _ 0%nat) by (rewrite seq_length; exact Hj).
    rewrite !seq_nth by assumption. reflexivity.
Qed.

(** C24 with a full covariance matrix: the inverse need not be given *)
Theorem C24_marginal_solver_partial : forall solve n flux M Cov mu l11 l12 l22, length flux = n -> length M = n ->
  symmetric Cov -> pos_def Cov n -> length Cov = n -> det n Cov <> 0 -> solves Cov n (solve Cov) -> 0 < l11 -> 0 < l11 * l22 - l12 * l12 ->
  exists P Z, inverse_of Cov P n /\ 0 < Z /\
    improper2 (fun fs fb => mvn_pdf n P (Rabs (det n Cov)) (residual flux M fs fb) * bvn_pdf mu l11 l12 l22 fs fb) Z /\
    nll_ulens_general solve flux M Cov mu ((l11, l12), (l12, l22)) = - ln Z - INR n / 2 * ln (2 * PI).
Proof.
  intros solve n flux M Cov mu l11 l12 l22 Lf LM Hs Hp LC Hd S H1 H2. destruct (solver_inverse _ _ _ S) as (P & I).
  destruct (marginal_general solve n flux M Cov P mu l11 l12 l22 Lf LM Hs Hp I LC Hd S H1 H2) as (Z & HZ). exists P, Z. split; [exact I|exact HZ].
Qed.
Print Assumptions C24_marginal_solver_partial.

(** fluxes and prior means times [c], covariances times [c^2]: the value changes by the constant [n ln |c|] *)
Theorem C81_general_units : forall solve n flux M Cov mu l11 l12 l22 c, c <> 0 ->
  length flux = n -> length M = n -> length Cov = n -> symmetric Cov -> pos_def Cov n -> det n Cov <> 0 ->
  solves Cov n (solve Cov) -> solves (times (c ^ 2) Cov) n (solve (times (c ^ 2) Cov)) -> 0 < l11 -> 0 < l11 * l22 - l12 * l12 ->
  nll_ulens_general solve (map (Rmult c) flux) M (times (c ^ 2) Cov) (c * fst mu, c * snd mu)
    ((c ^ 2 * l11, c ^ 2 * l12), (c ^ 2 * l12, c ^ 2 * l22)) =
  nll_ulens_general solve flux M Cov mu ((l11, l12), (l12, l22)) + INR n * ln (Rabs c).
Proof.
  intros solve n flux M Cov mu l11 l12 l22 c Hc Lf LM LC Hsym Hpd Hdet S1 S2 H11 HL. destruct (solver_inverse _ _ _ S1) as (P & Hinv).
  assert (c2 : 0 < c ^ 2) by nra. unfold nll_ulens_general.
  set (r := map (fun p => fst p - (fst (snd p) * fst mu + snd (snd p) * snd mu)) (combine flux M)).
  assert (Er : map (fun p => fst p - (fst (snd p) * fst (c * fst mu, c * snd mu) + snd (snd p) * snd (c * fst mu, c * snd mu)))
    (combine (map (Rmult c) flux) M) = map (Rmult c) r).
  { unfold r. clear. revert M. induction flux as [|a fl IH]; intros [|b M]; [reflexivity..|]. cbn [map combine fst snd] in *.
    rewrite IH. f_equal. ring. }
  rewrite Er. assert (Lr : length r = n) by (unfold r; rewrite map_length, combine_length, Lf, LM; apply Nat.min_id).
  assert (L0 : length (map fst M) = n) by (rewrite map_length; exact LM). assert (L1 : length (map snd M) = n) by (rewrite map_length; exact LM).
  assert (Lcr : length (map (Rmult c) r) = n) by (rewrite map_length; exact Lr).
  assert (D := fun u v => dot_sol n Cov P Hpd Hinv (solve Cov) u v S1).
  assert (D' := fun u v => dot_sol_times n Cov P Hpd Hinv (c ^ 2) (solve (times (c ^ 2) Cov)) u v ltac:(lra) S2).
  rewrite !D, !D' by assumption.
  assert (Nc : forall i, nth i (map (Rmult c) r) 0 = c * nth i r 0) by (intros i; replace 0 with (c * 0) at 1 by ring; apply map_nth).
  set (u := fun i => nth i (map fst M) 0). set (w := fun i => nth i (map snd M) 0). set (v := fun i => nth i r 0).
  assert (B1 : forall x, B n P x (fun i => nth i (map (Rmult c) r) 0) = c * B n P x v).
  { intros x. unfold B. rewrite <- isum_scal. apply isum_ext. intros i _.
    replace (app_p n P (fun i => nth i (map (Rmult c) r) 0) i) with (c * app_p n P v i); [ring|].
    unfold app_p. rewrite <- isum_scal. apply isum_ext. intros j _. rewrite Nc. unfold v. ring. }
  rewrite !B1.
  assert (B2 : B n P (fun i => nth i (map (Rmult c) r) 0) v = c * B n P v v).
  { unfold B at 1 2. rewrite <- isum_scal. apply isum_ext. intros i _. rewrite Nc. unfold v. ring. }
  rewrite B2. fold v.
  pose proof (B_cs n Cov P Hsym Hpd Hinv u w) as CS. pose proof (B_nonneg n Cov P Hpd Hinv u) as N1. pose proof (B_nonneg n Cov P Hpd Hinv w) as N2.
  pose proof (B_sym n Cov P Hsym Hinv w u) as Sy. rewrite Sy.
  set (uu := B n P u u) in *. set (ww := B n P w w) in *. set (uw := B n P u w) in *.
  set (uv := B n P u v). set (wv := B n P w v). set (vv := B n P v v).
  rewrite !logdet2. unfold logabsdet. unfold times at 1. rewrite map_length, LC. rewrite det_times by exact LC.
  set (dL := l11 * l22 - l12 * l12) in *.
  assert (ED : c ^ 2 * l11 * (c ^ 2 * l22) - c ^ 2 * l12 * (c ^ 2 * l12) = c ^ 4 * dL) by (unfold dL; ring). rewrite ED.
  assert (c4 : 0 < c ^ 4) by (replace (c ^ 4) with (c ^ 2 * c ^ 2) by ring; nra).
  set (a11 := l22 / dL + uu). set (a12 := - l12 / dL + uw). set (a22 := l11 / dL + ww).
  replace (c ^ 2 * l22 / (c ^ 4 * dL) + / c ^ 2 * uu) with (/ c ^ 2 * a11) by (unfold a11; field; split; lra).
  replace (c ^ 2 * l11 / (c ^ 4 * dL) + / c ^ 2 * ww) with (/ c ^ 2 * a22) by (unfold a22; field; split; lra).
  replace (- (c ^ 2 * l12) / (c ^ 4 * dL) + / c ^ 2 * uw) with (/ c ^ 2 * a12) by (unfold a12; field; split; lra).
  assert (PA : 0 < a11 * a22 - a12 * a12).
  { assert (l22 > 0) by (unfold dL in HL; nra).
    assert (X : a11 * a22 - a12 * a12 = (1 + (l22 * ww + l11 * uu + 2 * l12 * uw)) / dL + (uu * ww - uw * uw)).
    { unfold a11, a12, a22. unfold dL. field. unfold dL in HL. lra. }
    assert (Y : 0 <= l22 * ww + l11 * uu + 2 * l12 * uw).
    { apply Rmult_le_reg_l with l11; [exact H11|]. rewrite Rmult_0_r.
      destruct (Req_dec ww 0) as [Z|Z].
      - assert (uw = 0) by nra. rewrite H0, Z. nra.
      - assert (0 < ww) by lra. apply Rmult_le_reg_l with ww; [assumption|]. rewrite Rmult_0_r.
        replace (ww * (l11 * (l22 * ww + l11 * uu + 2 * l12 * uw))) with
          (dL * (ww * ww) + (l12 * ww + l11 * uw) ^ 2 + l11 ^ 2 * (uu * ww - uw * uw)) by (unfold dL; ring).
        assert (0 <= dL * (ww * ww)) by nra. assert (0 <= l11 ^ 2 * (uu * ww - uw * uw)) by (apply Rmult_le_pos; nra).
        pose proof (pow2_ge_0 (l12 * ww + l11 * uw)). lra. }
    rewrite X. assert (0 < (1 + (l22 * ww + l11 * uu + 2 * l12 * uw)) / dL) by (apply Rdiv_lt_0_compat; lra). lra. }
  set (dA := a11 * a22 - a12 * a12) in *.
  assert (EA : / c ^ 2 * a11 * (/ c ^ 2 * a22) - / c ^ 2 * a12 * (/ c ^ 2 * a12) = / c ^ 4 * dA) by (unfold dA; field; lra). rewrite EA.
  assert (P1 := Rabs_pos_lt c Hc).
  assert (lc4 : ln (c ^ 4) = 4 * ln (Rabs c)).
  { replace (c ^ 4) with (Rabs c ^ 4) by (replace (Rabs c ^ 4) with ((Rabs c ^ 2) ^ 2) by ring; rewrite pow2_abs; ring).
    rewrite ln_pow by exact P1. cbn [INR]. ring. }
  assert (lcn : ln (Rabs ((c ^ 2) ^ n)) = INR n * (2 * ln (Rabs c))).
  { rewrite (Rabs_right ((c ^ 2) ^ n)) by (apply Rle_ge, pow_le; lra). rewrite ln_pow by exact c2.
    rewrite <- pow2_abs, ln_pow by exact P1. cbn [INR]. ring. }
  rewrite !Rabs_mult, !ln_mult by (try apply Rabs_pos_lt; try apply pow_nonzero; try apply Rinv_neq_0_compat; lra).
  rewrite lcn, (Rabs_right (c ^ 4)), (Rabs_right (/ c ^ 4)), ln_Rinv, lc4 by (try apply Rle_ge, Rlt_le, Rinv_0_lt_compat; lra).
  replace 0.5 with (1 / 2) by lra. field. split; lra.
Qed.
Print Assumptions C81_general_units.

(** adding a multiple of each model column to the data and to the prior mean changes nothing, in particular a new zero point of the
    fluxes when the blend column is constant *)
Theorem C81_general_shift : forall solve flux M Cov mu Lambda a b,
  nll_ulens_general solve (map (fun p => fst p + (a * fst (snd p) + b * snd (snd p))) (combine flux M)) M Cov (fst mu + a, snd mu + b) Lambda =
  nll_ulens_general solve flux M Cov mu Lambda.
Proof.
  intros solve flux M Cov mu [[l11 l12] [l21 l22]] a b. unfold nll_ulens_general. cbn [fst snd].
  replace (map (fun p => fst p - (fst (snd p) * (fst mu + a) + snd (snd p) * (snd mu + b)))
    (combine (map (fun p => fst p + (a * fst (snd p) + b * snd (snd p))) (combine flux M)) M)) with
    (map (fun p => fst p - (fst (snd p) * fst mu + snd (snd p) * snd mu)) (combine flux M)); [reflexivity|].
  revert M. induction flux as [|f fl IH]; intros [|m M]; [reflexivity..|]. cbn [combine map fst snd]. rewrite IH. f_equal. ring.
Qed.
Print Assumptions C81_general_shift.
Example C81_shift_case : forall solve Cov, nll_ulens_general solve [5 + 10; 7 + 10] [(1, 1); (3, 1)] Cov (2, 0 + 10) ((4, 1), (1, 3)) =
  nll_ulens_general solve [5; 7] [(1, 1); (3, 1)] Cov (2, 0) ((4, 1), (1, 3)).
Proof.
  intros solve Cov. rewrite <- (C81_general_shift solve [5; 7] [(1, 1); (3, 1)] Cov (2, 0) ((4, 1), (1, 3)) 0 10). cbn [combine map fst snd].
  replace (5 + (0 * 1 + 10 * 1)) with (5 + 10) by ring. replace (7 + (0 * 3 + 10 * 1)) with (7 + 10) by ring.
  replace (2 + 0) with 2 by ring. reflexivity.
Qed.

(** two correlated points, fluxes in units of -3 *)
Definition cramer (m : list (list R)) (v : list R) : list R :=
  let d := entry m 0 0 * entry m 1 1 - entry m 0 1 * entry m 1 0 in
  [(entry m 1 1 * nth 0 v 0 - entry m 0 1 * nth 1 v 0) / d; (entry m 0 0 * nth 1 v 0 - entry m 1 0 * nth 0 v 0) / d].
Lemma cramer_solves m : entry m 0 0 * entry m 1 1 - entry m 0 1 * entry m 1 0 <> 0 -> solves m 2 (cramer m).
Proof.
  intros H v L. split; [reflexivity|]. intros [|[|i]] Hi; [| |lia]; cbn [isum]; unfold cramer; cbn [nth]; field; exact H.
Qed.
Lemma cov_symmetric : symmetric [[2; 1]; [1; 2]].
Proof. intros [|[|[|i]]] [|[|[|j]]]; reflexivity. Qed.
Lemma cov_pos_def : pos_def [[2; 1]; [1; 2]] 2.
Proof.
  intros v (i & Hi & N). unfold quad. cbn [isum entry nth].
  assert (N2 := Rsqr_pos_lt _ N). unfold Rsqr in N2. pose proof (pow2_ge_0 (v 0%nat + v 1%nat)).
  pose proof (pow2_ge_0 (v 0%nat)). pose proof (pow2_ge_0 (v 1%nat)).
  destruct i as [|[|i]]; [| |lia]; unfold entry; cbn [nth]; lra.
Qed.
Example C24_solver_case : exists P Z, inverse_of [[2; 1]; [1; 2]] P 2 /\ 0 < Z /\
  improper2 (fun fs fb => mvn_pdf 2 P (Rabs (det 2 [[2; 1]; [1; 2]])) (residual [5; 7] [(1, 1); (3, 1)] fs fb) * bvn_pdf (2, 0) 4 1 3 fs fb) Z /\
  nll_ulens_general cramer [5; 7] [(1, 1); (3, 1)] [[2; 1]; [1; 2]] (2, 0) ((4, 1), (1, 3)) = - ln Z - INR 2 / 2 * ln (2 * PI).
Proof.
  apply C24_marginal_solver_partial; try reflexivity; try lra; [exact cov_symmetric|exact cov_pos_def|cbn; lra|].
  apply cramer_solves. cbn. lra.
Qed.
Example C81_general_case :
  nll_ulens_general cramer [-3 * 5; -3 * 7] [(1, 1); (3, 1)] (times ((-3) ^ 2) [[2; 1]; [1; 2]]) (-3 * 2, -3 * 0)
    (((-3) ^ 2 * 4, (-3) ^ 2 * 1), ((-3) ^ 2 * 1, (-3) ^ 2 * 3)) =
  nll_ulens_general cramer [5; 7] [(1, 1); (3, 1)] [[2; 1]; [1; 2]] (2, 0) ((4, 1), (1, 3)) + 2 * ln 3.
Proof.
  replace (ln 3) with (ln (Rabs (-3))) by (f_equal; rewrite Rabs_left; lra).
  replace (2 * ln (Rabs (-3))) with (INR 2 * ln (Rabs (-3))) by (cbn [INR]; ring).
  apply (C81_general_units cramer 2 [5; 7] [(1, 1); (3, 1)] [[2; 1]; [1; 2]] (2, 0) 4 1 3 (-3));
    try reflexivity; try lra.
  - exact cov_symmetric.
  - exact cov_pos_def.
  - cbn. lra.
  - apply cramer_solves. cbn. lra.
  - apply cramer_solves. cbn. lra.
Qed.
