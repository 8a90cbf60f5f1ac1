(** Single point mass: images, magnification, critical curve (C09-C11), error cases (C13). *)
From Coq Require Import Reals List Lra Lia Bool Arith ZArith.
From Coquelicot Require Import Complex.
From Verif Require Import Base_R Base_List Base_C M_Utils M_Coeffs M_PointSource M_MagFft S_PointSource P_Lens P_PointSource.
Import ListNotations.
Local Open Scope R_scope.
Local Open Scope C_scope.

(** ** images *)
Lemma Re_Im_sq (w : C) : (Re w ^ 2 + Im w ^ 2 = Cmod w * Cmod w)%R.
Proof. rewrite Cmod_sq. unfold Re, Im. ring. Qed.
Section W.
Variable w : C.
Hypothesis Hw : w <> 0.
Let n := (Cmod w * Cmod w)%R.
Let S := sqrt (1 + 4 / n)%R.
Lemma n_pos : (0 < n)%R.
Proof. unfold n. assert (0 < Cmod w)%R by now apply Cmod_gt_0. nra. Qed.
Lemma S_sq : (S * S = 1 + 4 / n)%R.
Proof. unfold S. apply sqrt_sqrt. pose proof n_pos. assert (0 < 4 / n)%R by (apply Rdiv_lt_0_compat; lra). lra. Qed.
Lemma S_gt1 : (1 < S)%R.
Proof.
  pose proof S_sq as H. pose proof n_pos. assert (0 < 4 / n)%R by (apply Rdiv_lt_0_compat; lra).
  assert (0 <= S)%R by (unfold S; apply sqrt_pos). nra.
Qed.
Lemma half_RtoC x : RtoC 0.5 * w * RtoC x = RtoC (x / 2) * w.
Proof. replace (RtoC 0.5) with (RtoC (/2)) by (f_equal; lra). unfold Rdiv. rewrite RtoC_mult. ring. Qed.
Lemma images1_list : images1 w = ([RtoC ((1 + S) / 2) * w; RtoC ((1 - S) / 2) * w], [true; true]).
Proof. unfold images1. rewrite Re_Im_sq. fold n. fold S. now rewrite !half_RtoC. Qed.
Lemma scaled_image (t : R) : t <> 0%R -> (t * t - t - / n = 0)%R -> is_image single_lens w (RtoC t * w).
Proof.
  intros Ht E. assert (Hz : RtoC t * w <> 0) by (apply Cmult_neq_0; auto; now apply RtoC_neq0).
  split. now apply off_single. rewrite <- lens_eq1_map. unfold lens_eq1.
  pose proof n_pos. assert (Hc : Cconj w <> 0) by now apply Cconj_neq0.
  autorewrite with cconj.
  assert (Nn : w * Cconj w = RtoC n) by apply Cmult_conj.
  replace (1 / (RtoC t * Cconj w)) with (RtoC (/ (n * t)) * w).
  2:{ rewrite RtoC_inv, RtoC_mult, <- Nn by nra. field. repeat split; auto; now apply RtoC_neq0. }
  replace (RtoC t * w - RtoC (/ (n * t)) * w) with (RtoC (t - / (n * t)) * w) by (rewrite RtoC_minus; ring).
  replace (t - / (n * t))%R with 1%R. ring.
  assert (E2 : (t * t - / n = t)%R) by lra.
  apply (Rmult_eq_reg_r t); auto. rewrite <- E2 at 1. field. lra.
Qed.
Lemma single_images_iff (z : C) : is_image single_lens w z <-> In z (fst (images1 w)).
Proof.
  rewrite images1_list; simpl. pose proof S_sq as SS. pose proof S_gt1 as S1. pose proof n_pos as Np.
  split.
  - intros (Hz & E). apply off_single in Hz. rewrite <- lens_eq1_map in E. unfold lens_eq1 in E.
    assert (Hc : Cconj z <> 0) by now apply Cconj_neq0. assert (Hcw : Cconj w <> 0) by now apply Cconj_neq0.
    assert (E1 : z * Cconj z - 1 = w * Cconj z). { rewrite <- E. field. auto. }
    rewrite Cmult_conj in E1. set (m := (Cmod z * Cmod z)%R) in *.
    set (r := ((m - 1) / n)%R).
    assert (Ez : z = RtoC r * w).
    { apply Cconj_inj. autorewrite with cconj.
      assert (w * Cconj z = w * (RtoC r * Cconj w)).
      { rewrite <- E1. replace (w * (RtoC r * Cconj w)) with (RtoC r * (w * Cconj w)) by ring.
        rewrite Cmult_conj. fold n. rewrite <- RtoC_minus, <- RtoC_mult. f_equal. unfold r. field. lra. }
      apply (f_equal (fun x => / w * x)) in H.
      transitivity (/ w * (w * Cconj z)). field; auto. rewrite H. field; auto. }
    assert (Hr : r <> 0%R). { intros R0. apply Hz. rewrite Ez, R0. ring. }
    assert (Em : m = (r * r * n)%R).
    { unfold m. rewrite Ez, Cmod_mult, Cmod_R. unfold n. pose proof (Rsqr_abs r) as A. unfold Rsqr in A.
      transitivity ((Rabs r * Rabs r) * (Cmod w * Cmod w))%R. ring. rewrite <- A. ring. }
    assert (Er : (r * r - r - / n = 0)%R).
    { assert (r * n = m - 1)%R by (unfold r; field; lra). rewrite Em in H.
      apply (Rmult_eq_reg_r n); [|lra]. rewrite Rmult_0_l. 
      replace ((r * r - r - / n) * n)%R with (r * r * n - r * n - 1)%R by (field; lra). lra. }
    assert (F : ((r - (1 + S) / 2) * (r - (1 - S) / 2) = 0)%R).
    { replace ((r - (1 + S) / 2) * (r - (1 - S) / 2))%R with (r * r - r + (1 - S * S) / 4)%R by field.
      rewrite SS. rewrite <- Er. field. lra. }
    rewrite Ez. apply Rmult_integral in F. destruct F as [F|F]; [left|right; left]; f_equal; f_equal; lra.
  - intros [<-|[<-|[]]]; apply scaled_image.
    + lra.
    + replace ((1 + S) / 2 * ((1 + S) / 2) - (1 + S) / 2 - / n)%R with ((S * S - 1) / 4 - / n)%R by (field; pose proof n_pos; lra).
      rewrite SS. field. lra.
    + lra.
    + replace ((1 - S) / 2 * ((1 - S) / 2) - (1 - S) / 2 - / n)%R with ((S * S - 1) / 4 - / n)%R by (field; pose proof n_pos; lra).
      rewrite SS. field. lra.
Qed.
Lemma single_images_nodup : NoDup (fst (images1 w)).
Proof.
  rewrite images1_list; simpl. constructor; [|constructor; [easy|constructor]].
  intros [E|[]]. pose proof S_gt1.
  assert (K : RtoC ((1 + S) / 2 - (1 - S) / 2) * w = 0) by (rewrite RtoC_minus; transitivity (RtoC ((1 + S) / 2) * w - RtoC ((1 - S) / 2) * w); [ring | rewrite <- E; ring]).
  apply Cmult_integral in K. destruct K as [K|K]; auto. apply RtoC_inj in K. lra.
Qed.

(** ** magnification *)
Lemma n_eq : (Cmod w ^ 2 = n)%R. Proof. unfold n; ring. Qed.
Lemma Su : (S * Cmod w = sqrt (Cmod w ^ 2 + 4))%R.
Proof.
  symmetry. apply sqrt_lem_1.
  - rewrite n_eq. pose proof n_pos; lra.
  - pose proof S_gt1. pose proof (Cmod_ge_0 w). nra.
  - replace (S * Cmod w * (S * Cmod w))%R with ((S * S) * n)%R by (unfold n; ring). rewrite S_sq, n_eq.
    field. pose proof n_pos; lra.
Qed.
Lemma img_mod (t : R) : (Cmod (RtoC t * w) * Cmod (RtoC t * w) = t * t * n)%R.
Proof.
  rewrite Cmod_mult, Cmod_R. pose proof (Rsqr_abs t) as A. unfold Rsqr in A. unfold n.
  transitivity ((Rabs t * Rabs t) * (Cmod w * Cmod w))%R. ring. rewrite <- A. ring.
Qed.
Lemma t_minus_neg : ((1 - S) / 2 < 0)%R. Proof. pose proof S_gt1; lra. Qed.
Lemma tt_n (t : R) : (t * t - t - / n = 0)%R -> (t * t * n - 1 = t * n)%R.
Proof. intros E. pose proof n_pos. assert (E2 : (t * t = t + / n)%R) by lra. rewrite E2. field. lra. Qed.
Lemma tp_eq : ((1 + S) / 2 * ((1 + S) / 2) - (1 + S) / 2 - / n = 0)%R.
Proof. replace ((1 + S) / 2 * ((1 + S) / 2) - (1 + S) / 2 - / n)%R with ((S * S - 1) / 4 - / n)%R by (field; pose proof n_pos; lra).
  rewrite S_sq. field. pose proof n_pos; lra. Qed.
Lemma tm_eq : ((1 - S) / 2 * ((1 - S) / 2) - (1 - S) / 2 - / n = 0)%R.
Proof. replace ((1 - S) / 2 * ((1 - S) / 2) - (1 - S) / 2 - / n)%R with ((S * S - 1) / 4 - / n)%R by (field; pose proof n_pos; lra).
  rewrite S_sq. field. pose proof n_pos; lra. Qed.
(** contribution of one image to the returned value, and its true magnification *)
Lemma contrib (t : R) : t <> 0%R -> (t * t - t - / n = 0)%R -> (1 / Rabs (det_jac1 (RtoC t * w)%C) = Rabs t)%R.
Proof.
  intros Ht E. pose proof n_pos as Np. rewrite det_jac1_value by (apply Cmult_neq_0; auto; now apply RtoC_neq0).
  rewrite img_mod. pose proof (tt_n t E) as T.
  assert (P : (t * t * n <> 0)%R). { assert (0 < t * t)%R by nra. apply Rgt_not_eq. now apply Rmult_lt_0_compat. }
  replace (1 - 1 / (t * t * n))%R with (/ t)%R.
  - rewrite Rabs_inv. unfold Rdiv. rewrite Rmult_1_l, Rinv_inv. reflexivity.
  - replace (1 - 1 / (t * t * n))%R with ((t * t * n - 1) / (t * t * n))%R by (field; lra). rewrite T. field. lra.
Qed.
Lemma mag1_value pr p : mag_point_source pr 1 p w = Ok (sqrt (Cmod w ^ 2 + 4) / Cmod w)%R.
Proof.
  unfold mag_point_source; simpl Z.eqb; cbv iota. f_equal. rewrite images1_list. unfold sum_inv_det; simpl.
  pose proof S_gt1. pose proof t_minus_neg.
  rewrite !contrib; try apply tp_eq; try apply tm_eq; try lra.
  rewrite (Rabs_pos_eq ((1 + S) / 2)), (Rabs_left ((1 - S) / 2)) by lra.
  assert (P : (0 < Cmod w)%R) by now apply Cmod_gt_0.
  replace (Cmod w * (Cmod w * 1) + 4)%R with (Cmod w ^ 2 + 4)%R by ring. rewrite <- Su. field. lra.
Qed.
(** true magnification of an image *)
Lemma true_contrib (t D : R) : t <> 0%R -> (t * t - t - / n = 0)%R -> (1 / n + t * t <> 0)%R ->
  jacobian_det single_lens (RtoC t * w) D -> (1 / Rabs D = t * t * Rabs t / (t * t + / n))%R.
Proof.
  intros Ht E _ (M & HM & HD). pose proof n_pos as Np.
  assert (Hz : RtoC t * w <> 0) by (apply Cmult_neq_0; auto; now apply RtoC_neq0).
  assert (ED : D = (1 - 1 / (t * t * n) ^ 2)%R).
  { rewrite <- HD, <- img_mod, <- single_det by auto. f_equal. eapply has_derivative_unique. exact HM.
    apply lens_map_derivative. now apply off_single. }
  assert (T2 : (0 < t * t)%R) by nra.
  assert (Pn : (0 < / n)%R) by now apply Rinv_0_lt_compat.
  pose proof (tt_n t E) as T.
  assert (ED2 : D = ((t * t + / n) / (t * t) * / t)%R).
  { rewrite ED. replace (1 - 1 / (t * t * n) ^ 2)%R with ((t * t * n - 1) * (t * t * n + 1) / (t * t * n) ^ 2)%R by (field; lra).
    rewrite T. field. lra. }
  rewrite ED2, Rabs_mult, Rabs_inv, (Rabs_pos_eq ((t * t + / n) / (t * t))).
  2:{ left. apply Rdiv_lt_0_compat; lra. }
  field. all: repeat split; try lra; try (apply Rabs_no_R0; auto).
  assert (0 < t * t * n)%R by now apply Rmult_lt_0_compat. lra.
Qed.
Lemma true_mag1 D : (forall z, In z (fst (images1 w)) -> jacobian_det single_lens z (D z)) ->
  sumR (map (fun z => 1 / Rabs (D z))%R (fst (images1 w))) = A_point (Cmod w).
Proof.
  rewrite images1_list; cbn [fst map sumR]. intros HD. pose proof S_gt1. pose proof t_minus_neg. pose proof n_pos as Np.
  assert (Pn : (0 < / n)%R) by now apply Rinv_0_lt_compat.
  assert (P : (0 < Cmod w)%R) by now apply Cmod_gt_0.
  rewrite (true_contrib ((1 + S) / 2)); try apply tp_eq; try lra; try nra. 2: apply HD; simpl; auto.
  rewrite (true_contrib ((1 - S) / 2)); try apply tm_eq; try lra; try nra. 2: apply HD; simpl; auto.
  rewrite (Rabs_pos_eq ((1 + S) / 2)), (Rabs_left ((1 - S) / 2)) by lra.
  unfold A_point. rewrite (Rabs_pos_eq (Cmod w)) by lra. rewrite <- Su. 
  assert (En : (/ n = (S * S - 1) / 4)%R) by (rewrite S_sq; field; lra).
  assert (Ew : (Cmod w ^ 2 = 4 / (S * S - 1))%R). { rewrite n_eq. rewrite <- (Rinv_inv n), En. field. nra. }
  rewrite Ew, En.
  replace ((4 / (S * S - 1) + 2) / Cmod w / (S * Cmod w))%R with ((4 / (S * S - 1) + 2) / (S * (Cmod w ^ 2)))%R by (field; lra).
  rewrite Ew. field. repeat split; nra.
Qed.
End W.

Lemma mag1_not_paczynski (w : C) pr p : w <> 0 -> mag_point_source pr 1 p w <> Ok (A_point (Cmod w)).
Proof.
  intros Hw E. rewrite mag1_value in E by auto. injection E. unfold A_point.
  assert (P : (0 < Cmod w)%R) by now apply Cmod_gt_0. rewrite (Rabs_pos_eq (Cmod w)) by lra.
  set (u := Cmod w) in *. replace (u * (u * 1))%R with (u^2)%R by ring. intros E'.
  assert (Q : (0 < sqrt (u ^ 2 + 4))%R) by (apply sqrt_lt_R0; nra).
  assert (SS : (sqrt (u ^ 2 + 4) * sqrt (u ^ 2 + 4) = u ^ 2 + 4)%R) by (apply sqrt_sqrt; nra).
  apply (f_equal (fun x => x * (u * sqrt (u ^ 2 + 4)))%R) in E'.
  replace (sqrt (u ^ 2 + 4) / u * (u * sqrt (u ^ 2 + 4)))%R with (u ^ 2 + 4)%R in E' by (rewrite <- SS at 1; field; lra).
  replace ((u ^ 2 + 2) / u / sqrt (u ^ 2 + 4) * (u * sqrt (u ^ 2 + 4)))%R with (u ^ 2 + 2)%R in E' by (field; lra). lra.
Qed.
(** overestimate factor *)
Lemma A_point_lt u : (0 < u)%R -> (1 < A_point u < sqrt (u ^ 2 + 4) / u)%R.
Proof.
  intros P. unfold A_point. rewrite (Rabs_pos_eq u) by lra.
  assert (Q : (0 < sqrt (u ^ 2 + 4))%R) by (apply sqrt_lt_R0; nra).
  assert (SS : (sqrt (u ^ 2 + 4) * sqrt (u ^ 2 + 4) = u ^ 2 + 4)%R) by (apply sqrt_sqrt; nra).
  set (s := sqrt (u ^ 2 + 4)) in *. 
  assert (us : (0 < u * s)%R) by nra.
  split.
  - apply (Rmult_lt_reg_r (u * s)); auto. replace ((u ^ 2 + 2) / u / s * (u * s))%R with (u ^ 2 + 2)%R by (field; lra).
    rewrite Rmult_1_l. assert ((u * s) * (u * s) < (u^2+2) * (u^2+2))%R by (replace ((u*s)*(u*s))%R with (u^2 * (s * s))%R by ring; rewrite SS; nra).
    nra.
  - apply (Rmult_lt_reg_r (u * s)); auto. replace ((u ^ 2 + 2) / u / s * (u * s))%R with (u ^ 2 + 2)%R by (field; lra).
    replace (s / u * (u * s))%R with (s * s)%R by (field; lra). lra.
Qed.
Lemma A_point_decreasing u v : (0 < u)%R -> (u < v)%R -> (A_point v < A_point u)%R.
Proof.
  intros P L. unfold A_point. rewrite (Rabs_pos_eq u), (Rabs_pos_eq v) by lra.
  assert (K : forall x, (0 < x)%R -> ((x ^ 2 + 2) / x / sqrt (x ^ 2 + 4) = sqrt (1 + 4 / (x ^ 2 * (x ^ 2 + 4))))%R).
  { intros x Hx. symmetry. apply sqrt_lem_1.
    - assert (0 < 4 / (x ^ 2 * (x ^ 2 + 4)))%R by (apply Rdiv_lt_0_compat; nra). lra.
    - assert (0 < sqrt (x ^ 2 + 4))%R by (apply sqrt_lt_R0; nra). left. repeat apply Rdiv_lt_0_compat; nra.
    - assert (SS : (sqrt (x ^ 2 + 4) * sqrt (x ^ 2 + 4) = x ^ 2 + 4)%R) by (apply sqrt_sqrt; nra).
      assert (Q : (0 < sqrt (x ^ 2 + 4))%R) by (apply sqrt_lt_R0; nra).
      replace ((x ^ 2 + 2) / x / sqrt (x ^ 2 + 4) * ((x ^ 2 + 2) / x / sqrt (x ^ 2 + 4)))%R
        with ((x ^ 2 + 2) ^ 2 / x ^ 2 / (sqrt (x ^ 2 + 4) * sqrt (x ^ 2 + 4)))%R by (field; lra).
      rewrite SS. field. nra. }
  rewrite !K by lra. apply sqrt_lt_1_alt. split.
  - assert (0 < 4 / (v ^ 2 * (v ^ 2 + 4)))%R by (apply Rdiv_lt_0_compat; nra). lra.
  - apply Rplus_lt_compat_l. unfold Rdiv. apply Rmult_lt_compat_l; [lra|]. apply Rinv_lt_contravar.
    + assert (0 < u ^ 2)%R by nra. assert (0 < v ^ 2)%R by nra. apply Rmult_lt_0_compat; apply Rmult_lt_0_compat; lra.
    + assert (u ^ 2 < v ^ 2)%R by nra. assert (0 < u ^ 2)%R by nra. apply Rmult_le_0_lt_compat; lra.
Qed.
Lemma mag1_decreasing u v : (0 < u)%R -> (u < v)%R -> (sqrt (v ^ 2 + 4) / v < sqrt (u ^ 2 + 4) / u)%R.
Proof.
  intros P L.
  assert (K : forall x, (0 < x)%R -> (sqrt (x ^ 2 + 4) / x = sqrt (1 + 4 / x ^ 2))%R).
  { intros x Hx. symmetry. apply sqrt_lem_1.
    - assert (0 < 4 / x ^ 2)%R by (apply Rdiv_lt_0_compat; nra). lra.
    - assert (0 < sqrt (x ^ 2 + 4))%R by (apply sqrt_lt_R0; nra). left. repeat apply Rdiv_lt_0_compat; nra.
    - assert (SS : (sqrt (x ^ 2 + 4) * sqrt (x ^ 2 + 4) = x ^ 2 + 4)%R) by (apply sqrt_sqrt; nra).
      replace (sqrt (x ^ 2 + 4) / x * (sqrt (x ^ 2 + 4) / x))%R with (sqrt (x ^ 2 + 4) * sqrt (x ^ 2 + 4) / x ^ 2)%R by (field; lra).
      rewrite SS. field. lra. }
  rewrite !K by lra. apply sqrt_lt_1_alt. split.
  - assert (0 < 4 / v ^ 2)%R by (apply Rdiv_lt_0_compat; nra). lra.
  - apply Rplus_lt_compat_l. unfold Rdiv. apply Rmult_lt_compat_l; [lra|].
    assert (0 < u ^ 2)%R by nra. assert (u ^ 2 < v ^ 2)%R by nra. apply Rinv_lt_contravar; [apply Rmult_lt_0_compat|]; lra.
Qed.

(** ** critical curve of one lens *)
Lemma linspace_length lo hi n : length (linspace lo hi n) = n.
Proof. unfold linspace. now rewrite map_length, seq_length. Qed.
Lemma crit1 pr npts p : exists zs cs, critical_and_caustic_curves pr npts 1 p = Ok ([zs], [cs]) /\
  length zs = npts /\ length cs = npts /\
  (forall z, In z zs -> Cmod z = 1%R /\ det_jac1 z = 0%R /\ jacobian_det single_lens z 0 /\ lens_map single_lens z = 0) /\
  (forall z, In z cs -> z = 0).
Proof.
  eexists _, _. split; [reflexivity|]. rewrite !map_length, !linspace_length. split; [auto|]. split; [auto|]. split.
  2:{ intros z H. apply in_map_iff in H. destruct H as (t & <- & _). reflexivity. }
  intros z H; apply in_map_iff in H; destruct H as (t & <- & _). repeat split.
  - apply Cmod_cexpi.
  - rewrite det_jac1_value by apply cexpi_neq0. rewrite Cmod_cexpi. lra.
  - eexists. split. apply lens_map_derivative. apply off_single. apply cexpi_neq0.
    rewrite single_det by apply cexpi_neq0. rewrite Cmod_cexpi. lra.
  - rewrite <- lens_eq1_map. unfold lens_eq1. rewrite Cconj_cexpi.
    assert (E : cexpi (- t) * cexpi (- - t) = 1).
    { rewrite <- cexpi_add. replace (- t + - - t)%R with 0%R by ring. apply cexpi_0. }
    pose proof (cexpi_neq0 (- - t)) as N. apply (f_equal (fun x => x / cexpi (- - t))) in E.
    replace (cexpi (- t)) with (cexpi (- t) * cexpi (- - t) / cexpi (- - t)) by (field; auto). rewrite E. ring.
Qed.
(** every point of the unit circle is sampled in the limit: the sample angles *)
Lemma linspace_nth lo hi n i : (i < n)%nat -> nth i (linspace lo hi n) 0%R = (lo + INR i * ((hi - lo) / INR (n - 1)))%R.
Proof.
  intros H. unfold linspace. rewrite (nth_map_lt _ _ _ 0%nat) by now rewrite seq_length. now rewrite seq_nth.
Qed.

(** ** error cases *)
Definition full_params (p : params) : Prop :=
  p_s p <> None /\ p_q p <> None /\ p_q3 p <> None /\ p_r3 p <> None /\ p_psi p <> None /\
  p_a p <> None /\ p_e1 p <> None /\ p_e2 p <> None.
Definition raises {A} (r : res A) (e : exn) : Prop := r = Raise e.
Definition returns {A} (r : res A) : Prop := exists a, r = Ok a.
Lemma nlens_cases (n : Z) : n <> 1%Z -> n <> 2%Z -> n <> 3%Z -> (n =? 1)%Z = false /\ (n =? 2)%Z = false /\ (n =? 3)%Z = false.
Proof. intros; repeat split; now apply Z.eqb_neq. Qed.
Lemma unsupported pr npts n p init (z w : C) : n <> 1%Z -> n <> 2%Z -> n <> 3%Z ->
  lens_eq n p z = Raise ValueError /\ lens_eq_det_jac n p z = Raise ValueError /\
  images_point_source pr n p init w = Raise ValueError /\ mag_point_source pr n p w = Raise ValueError /\
  critical_and_caustic_curves pr npts n p = Raise ValueError.
Proof.
  intros H1 H2 H3. destruct (nlens_cases n H1 H2 H3) as (E1 & E2 & E3).
  unfold lens_eq, lens_eq_det_jac, images_point_source, mag_point_source, critical_and_caustic_curves.
  rewrite E1, E2, E3. auto.
Qed.
Lemma supported pr npts n p init (z w : C) : (n = 1 \/ n = 2 \/ n = 3)%Z -> full_params p ->
  returns (lens_eq n p z) /\ returns (lens_eq_det_jac n p z) /\
  returns (images_point_source pr n p init w) /\ returns (mag_point_source pr n p w) /\
  returns (critical_and_caustic_curves pr npts n p).
Proof.
  destruct p as [[s|] [q|] [q3|] [r3|] [psi|] [a|] [e1|] [e2|]]; intros Hn (A & B & D & E & F & G & H & I); simpl in *; try congruence.
  unfold returns, lens_eq, lens_eq_det_jac, images_point_source, mag_point_source, critical_and_caustic_curves.
  destruct Hn as [->|[->| ->]]; simpl; repeat split; eexists; reflexivity.
Qed.
Lemma missing_key pr (n : Z) p w : (n = 2 \/ n = 3)%Z -> p_s p = None \/ p_q p = None -> mag_point_source pr n p w = Raise KeyError.
Proof.
  intros [->| ->] [E|E]; unfold mag_point_source; simpl; rewrite ?E; auto; destruct (p_s p); simpl; rewrite ?E; auto.
Qed.
