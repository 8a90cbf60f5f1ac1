(** General covariance. *)
From Coq Require Import Reals List Bool Arith Lia Lra.
From Coquelicot Require Import Coquelicot.
From Verif Require Import Base_R Base_List Base_Int M_Likelihood S_Integral S_Likelihood P_Gauss P_Marginal.
Import ListNotations.
Local Open Scope R_scope.

(** * index sums *)
Lemma isum_ext n f g : (forall i, (i < n)%nat -> f i = g i) -> isum n f = isum n g.
Proof. intros H. induction n; simpl; [reflexivity|]. rewrite IHn, H by (intros; try apply H; lia). reflexivity. Qed.
Lemma isum_plus n f g : isum n (fun i => f i + g i) = isum n f + isum n g.
Proof. induction n; simpl; [ring|]. rewrite IHn. ring. Qed.
Lemma isum_scal n c f : isum n (fun i => c * f i) = c * isum n f.
Proof. induction n; simpl; [ring|]. rewrite IHn. ring. Qed.
Lemma isum_zero n : isum n (fun _ => 0) = 0.
Proof. induction n; simpl; [reflexivity|]. rewrite IHn. ring. Qed.
Lemma isum_swap n m f : isum n (fun i => isum m (fun j => f i j)) = isum m (fun j => isum n (fun i => f i j)).
Proof.
  induction n; simpl; [symmetry; apply isum_zero|]. rewrite IHn, <- isum_plus. reflexivity.
Qed.
Lemma isum_delta n k f : (k < n)%nat -> isum n (fun i => (if Nat.eq_dec k i then f i else 0)) = f k.
Proof.
  induction n; intros H; [lia|]. simpl. destruct (Nat.eq_dec k n) as [->|N].
  - rewrite (isum_ext n _ (fun _ => 0)).
    + rewrite isum_zero. ring.
    + intros i Hi. destruct (Nat.eq_dec n i); [lia|reflexivity].
  - rewrite IHn by lia. ring.
Qed.
Lemma isum_shift n f : isum (S n) f = f 0%nat + isum n (fun i => f (S i)).
Proof. induction n; simpl in *; [ring|]. rewrite IHn. ring. Qed.
Lemma dot_isum u v : length u = length v -> dot u v = isum (length u) (fun i => nth i u 0 * nth i v 0).
Proof.
  revert v. induction u as [|a u IH]; intros [|b v] L; try discriminate; [reflexivity|].
  cbn [length]. rewrite isum_shift. cbn [nth]. rewrite <- IH by (simpl in *; lia). reflexivity.
Qed.

(** * inverse covariance *)
Section GEN.
Variables (n : nat) (m p : list (list R)).
Hypothesis Hsym : symmetric m.
Hypothesis Hpd : pos_def m n.
Hypothesis Hinv : inverse_of m p n.

Definition app_p (v : nat -> R) (i : nat) : R := isum n (fun j => entry p i j * v j).
Definition B (u v : nat -> R) : R := isum n (fun i => u i * app_p v i).
Lemma app_p_solves v i : (i < n)%nat -> isum n (fun k => entry m i k * app_p v k) = v i.
Proof.
  intros Hi. unfold app_p.
  rewrite (isum_ext n _ (fun k => isum n (fun j => entry m i k * entry p k j * v j))).
  2:{ intros k _. rewrite <- isum_scal. apply isum_ext. intros; ring. }
  rewrite isum_swap.
  rewrite (isum_ext n _ (fun j => if Nat.eq_dec i j then v j else 0)).
  - apply (isum_delta n i v Hi).
  - intros j Hj. rewrite (isum_ext n _ (fun k => v j * (entry m i k * entry p k j))) by (intros; ring).
    rewrite isum_scal, (proj2 Hinv i j Hi Hj). destruct (Nat.eq_dec i j); ring.
Qed.
Lemma B_sym u v : B u v = B v u.
Proof.
  unfold B.
  rewrite (isum_ext n _ (fun i => isum n (fun k => entry m i k * app_p u k * app_p v i))).
  2:{ intros i Hi. rewrite <- (app_p_solves u i Hi) at 1. rewrite Rmult_comm, <- isum_scal. apply isum_ext. intros; ring. }
  rewrite isum_swap. apply isum_ext. intros k Hk.
  rewrite (isum_ext n _ (fun i => app_p u k * (entry m k i * app_p v i))).
  - rewrite isum_scal, (app_p_solves v k Hk). ring.
  - intros i _. rewrite (Hsym i k). ring.
Qed.
Lemma B_plus u v w : B u (fun i => v i + w i) = B u v + B u w.
Proof.
  unfold B. rewrite <- isum_plus. apply isum_ext. intros i _. unfold app_p.
  rewrite <- Rmult_plus_distr_l, <- isum_plus. f_equal. apply isum_ext. intros; ring.
Qed.
Lemma B_scal u v c : B u (fun i => c * v i) = c * B u v.
Proof.
  unfold B. rewrite <- isum_scal. apply isum_ext. intros i _. unfold app_p.
  rewrite (isum_ext n _ (fun j => c * (entry p i j * v j))) by (intros; ring). rewrite isum_scal. ring.
Qed.
Lemma B_ext u u' v v' : (forall i, (i < n)%nat -> u i = u' i) -> (forall i, (i < n)%nat -> v i = v' i) -> B u v = B u' v'.
Proof.
  intros H H'. unfold B, app_p. apply isum_ext. intros i Hi. rewrite (H i Hi). f_equal.
  apply isum_ext. intros j Hj. rewrite (H' j Hj). reflexivity.
Qed.
Lemma B_quad v : B v v = quad p n v.
Proof.
  unfold B, quad, app_p. apply isum_ext. intros i _. rewrite <- isum_scal. apply isum_ext. intros; ring.
Qed.
Lemma zero_dec (v : nat -> R) k : (exists i, (i < k)%nat /\ v i <> 0) \/ (forall i, (i < k)%nat -> v i = 0).
Proof.
  induction k as [|k IH]; [right; intros; lia|].
  destruct IH as [(i & Hi & N)|Z]; [left; exists i; split; [lia|exact N]|].
  destruct (Req_dec (v k) 0) as [e|N]; [|left; exists k; split; [lia|exact N]].
  right. intros i Hi. destruct (Nat.eq_dec i k) as [->|]; [exact e|apply Z; lia].
Qed.
Lemma B_nonneg v : 0 <= B v v.
Proof.
  assert (E : B v v = quad m n (app_p v)).
  { unfold B, quad. apply isum_ext. intros i Hi. rewrite <- (app_p_solves v i Hi) at 1.
    rewrite Rmult_comm, <- isum_scal. apply isum_ext. intros; ring. }
  rewrite E. destruct (zero_dec (app_p v) n) as [P|Z].
  - apply Rlt_le, Hpd, P.
  - right. symmetry. unfold quad. rewrite (isum_ext n _ (fun _ => 0)); [apply isum_zero|].
    intros i Hi. rewrite (isum_ext n _ (fun _ => 0)); [apply isum_zero|]. intros j _. rewrite (Z i Hi). ring.
Qed.
Lemma sol_unique (x v : nat -> R) : (forall i, (i < n)%nat -> isum n (fun j => entry m i j * x j) = v i) ->
  forall i, (i < n)%nat -> x i = app_p v i.
Proof.
  intros H. set (d := fun i => x i - app_p v i).
  assert (Z : forall i, (i < n)%nat -> isum n (fun j => entry m i j * d j) = 0).
  { intros i Hi. rewrite (isum_ext n _ (fun j => entry m i j * x j + (-1) * (entry m i j * app_p v j))) by (intros; unfold d; ring).
    rewrite isum_plus, isum_scal, (H i Hi), (app_p_solves v i Hi). ring. }
  destruct (zero_dec d n) as [P|Q].
  - exfalso. specialize (Hpd d P). unfold quad in Hpd.
    rewrite (isum_ext n _ (fun _ => 0)) in Hpd.
    + rewrite isum_zero in Hpd. lra.
    + intros i Hi. rewrite (isum_ext n _ (fun j => d i * (entry m i j * d j))) by (intros; ring). rewrite isum_scal, (Z i Hi). ring.
  - intros i Hi. specialize (Q i Hi). unfold d in Q. lra.
Qed.
Lemma dot_sol sol u v : solves m n sol -> length u = n -> length v = n ->
  dot u (sol v) = B (fun i => nth i u 0) (fun i => nth i v 0).
Proof.
  intros S Lu Lv. destruct (S v Lv) as [L E].
  rewrite dot_isum by congruence. rewrite Lu. unfold B. apply isum_ext. intros i Hi. f_equal.
  exact (sol_unique (fun k => nth k (sol v) 0) (fun k => nth k v 0) E i Hi).
Qed.
Lemma B_cs u v : B u v * B u v <= B u u * B v v.
Proof.
  assert (Q : forall x y, 0 <= x * x * B u u + 2 * x * y * B u v + y * y * B v v).
  { intros x y. pose proof (B_nonneg (fun i => x * u i + y * v i)) as N.
    rewrite B_plus, !B_scal in N. rewrite (B_sym _ u), (B_sym _ v), !B_plus, !B_scal, (B_sym v u) in N. nra. }
  pose proof (B_nonneg u) as P1. pose proof (B_nonneg v) as P2.
  set (A := B u u) in *. set (F := B u v) in *. set (D := B v v) in *.
  destruct (Req_dec A 0) as [e|N].
  - destruct (Req_dec F 0) as [eb|nb]; [rewrite eb; nra|exfalso].
    specialize (Q (- (D + 1) / (2 * F)) 1). rewrite e in Q.
    replace (- (D + 1) / (2 * F) * (- (D + 1) / (2 * F)) * 0 + 2 * (- (D + 1) / (2 * F)) * 1 * F + 1 * 1 * D) with (-1) in Q by (field; exact nb). lra.
  - specialize (Q (- F) A). assert (0 < A) by lra.
    assert (E : - F * - F * A + 2 * - F * A * F + A * A * D = A * (A * D - F * F)) by ring. rewrite E in Q.
    assert (0 <= A * D - F * F); [|lra]. apply (Rmult_le_reg_l A); [assumption|]. lra.
Qed.
End GEN.
Lemma det2 a b c d : det 2 [[a; b]; [c; d]] = a * d - b * c.
Proof. cbn. ring. Qed.
Lemma logdet2 a b c d : logabsdet [[a; b]; [c; d]] = ln (Rabs (a * d - b * c)).
Proof. unfold logabsdet. cbn [length]. rewrite det2. reflexivity. Qed.

Lemma resid_nth flux M mu i : length M = length flux -> (i < length flux)%nat ->
  nth i (map (fun p => fst p - (fst (snd p) * fst mu + snd (snd p) * snd mu)) (combine flux M)) 0 =
  residual flux M (fst mu) (snd mu) i.
Proof.
  intros L Hi. rewrite (nth_map_lt _ _ _ (0, (0, 0))) by (rewrite combine_length, L, Nat.min_id; exact Hi).
  rewrite combine_nth by congruence. cbn [fst snd]. unfold residual. ring.
Qed.
Lemma marginal_general solve n flux M Cov P mu l11 l12 l22 :
  length flux = n -> length M = n ->
  symmetric Cov -> pos_def Cov n -> inverse_of Cov P n -> length Cov = n -> det n Cov <> 0 ->
  solves Cov n (solve Cov) -> 0 < l11 -> 0 < l11 * l22 - l12 * l12 ->
  exists Z, 0 < Z /\
    improper2 (fun fs fb => mvn_pdf n P (Rabs (det n Cov)) (residual flux M fs fb) * bvn_pdf mu l11 l12 l22 fs fb) Z /\
    nll_ulens_general solve flux M Cov mu ((l11, l12), (l12, l22)) = - ln Z - INR n / 2 * ln (2 * PI).
Proof.
  intros Lf LM Hs Hp Hi LC Hd Hsol P1 PL.
  set (DL := l11 * l22 - l12 * l12) in *.
  set (u0 := fun i => nth i (map fst M) 0). set (u1 := fun i => nth i (map snd M) 0).
  set (r := residual flux M (fst mu) (snd mu)).
  set (Bp := B n P).
  set (a11 := l22 / DL + Bp u0 u0). set (a22 := l11 / DL + Bp u1 u1). set (a12 := - l12 / DL + Bp u0 u1).
  set (b1 := Bp u0 r). set (b2 := Bp u1 r). set (c := Bp r r).
  assert (Bs : forall u v, Bp u v = Bp v u) by (intros; apply (B_sym n Cov P Hs Hi)).
  pose proof (B_nonneg n Cov P Hp Hi u0) as N0. pose proof (B_nonneg n Cov P Hp Hi u1) as N1.
  pose proof (B_cs n Cov P Hs Hp Hi u0 u1) as CS. fold Bp in N0, N1, CS.
  assert (P2 : 0 < l22) by (unfold DL in PL; nra).
  assert (I1 : 0 < l22 / DL) by (apply Rdiv_lt_0_compat; assumption).
  assert (I2 : 0 < l11 / DL) by (apply Rdiv_lt_0_compat; assumption).
  assert (A2 : 0 < a22) by (unfold a22; lra).
  assert (HD : 0 < a11 * a22 - a12 * a12).
  { (* sum of a positive definite and a positive semidefinite form, evaluated as a quadratic *)
    assert (ID : l22 / DL * (l11 / DL) - (- l12 / DL) * (- l12 / DL) = / DL) by (unfold DL in *; field; lra).
    assert (IP : 0 < / DL) by (apply Rinv_0_lt_compat; exact PL).
    unfold a11, a22, a12. set (s := l22 / DL) in *. set (t := l11 / DL) in *. set (o := - l12 / DL) in *.
    set (x := Bp u0 u0) in *. set (y := Bp u1 u1) in *. set (z := Bp u0 u1) in *.
    (* s y + t x >= 2 |o z| *)
    assert (K : 0 <= s * y + t * x - 2 * o * z).
    { assert (S1 : (o * z) * (o * z) <= (s * y) * (t * x)).
      { assert (o * o <= s * t) by lra. replace ((s * y) * (t * x)) with ((s * t) * (x * y)) by ring.
        replace ((o * z) * (o * z)) with ((o * o) * (z * z)) by ring. apply Rmult_le_compat; try nra. }
      assert (0 <= s * y) by (apply Rmult_le_pos; lra). assert (0 <= t * x) by (apply Rmult_le_pos; lra).
      destruct (Rle_lt_dec (2 * (o * z)) 0); [nra|].
      assert (H4 : (2 * (o * z)) * (2 * (o * z)) <= (s * y + t * x) * (s * y + t * x)).
      { pose proof (pow2_ge_0 (s * y - t * x)). nra. }
      assert (2 * (o * z) <= s * y + t * x); [|lra].
      apply Rsqr_incr_0_var; [unfold Rsqr; exact H4|lra]. }
    nra. }
  pose proof (gauss2 c b1 b2 a11 a12 a22 A2 HD) as G. cbv zeta in G. set (D := a11 * a22 - a12 * a12) in *.
  set (q := c - (b1 * ((a22 * b1 - a12 * b2) / D) + b2 * ((a11 * b2 - a12 * b1) / D))) in *.
  pose proof PI_RGT_0 as HP. set (dC := Rabs (det n Cov)). assert (Pd : 0 < dC) by (apply Rabs_pos_lt; exact Hd).
  assert (PP : 0 < (2 * PI) ^ n) by (apply pow_lt; lra).
  assert (PS : 0 < sqrt ((2 * PI) ^ n * dC)) by (apply sqrt_lt_R0, Rmult_lt_0_compat; assumption).
  assert (SL : 0 < sqrt DL) by (apply sqrt_lt_R0; exact PL). assert (SD : 0 < sqrt D) by (apply sqrt_lt_R0; exact HD).
  set (K := / sqrt ((2 * PI) ^ n * dC) * / (2 * PI * sqrt DL)).
  assert (P2L : 0 < 2 * PI * sqrt DL) by (apply Rmult_lt_0_compat; lra).
  assert (PK : 0 < K) by (unfold K; apply Rmult_lt_0_compat; apply Rinv_0_lt_compat; assumption).
  assert (PR : 0 < 2 * PI / sqrt D) by (apply Rdiv_lt_0_compat; lra).
  exists (K * (2 * PI / sqrt D * exp (- q / 2))). split; [|split].
  - apply Rmult_lt_0_compat; [exact PK|]. apply Rmult_lt_0_compat; [exact PR|apply exp_pos].
  - apply (improper2_scal _ _ K) in G. apply (improper2_shift _ _ (fst mu) (snd mu)) in G.
    revert G. apply improper2_ext. intros fs fb. set (x := fs - fst mu). set (y := fb - snd mu).
    unfold mvn_pdf, bvn_pdf. fold DL. fold x y. cbv zeta.
    assert (QF : quad P n (residual flux M fs fb) =
       c - 2 * (b1 * x + b2 * y) + Bp u0 u0 * (x * x) + 2 * Bp u0 u1 * (x * y) + Bp u1 u1 * (y * y)).
    { rewrite <- B_quad.
      assert (E : forall i, (i < n)%nat -> residual flux M fs fb i = r i + (- x * u0 i + - y * u1 i)).
      { intros i Hin. unfold r, residual, u0, u1, x, y.
        rewrite !(nth_map_lt _ _ _ (0, 0)) by lia. ring. }
      rewrite (B_ext n P _ (fun i => r i + (- x * u0 i + - y * u1 i)) _ (fun i => r i + (- x * u0 i + - y * u1 i)) E E). fold Bp.
      unfold Bp. rewrite !B_plus, !B_scal. fold Bp.
      rewrite (Bs _ r), (Bs _ u0), (Bs _ u1). unfold Bp. rewrite !B_plus, !B_scal. fold Bp.
      rewrite (Bs u1 u0), (Bs r u0), (Bs r u1). fold b1 b2 c. ring. }
    rewrite QF. fold dC.
    transitivity (K * (exp (- (c - 2 * (b1 * x + b2 * y) + Bp u0 u0 * (x * x) + 2 * Bp u0 u1 * (x * y) + Bp u1 u1 * (y * y)) / 2)
        * exp (- ((l22 * (x * x) - 2 * l12 * (x * y) + l11 * (y * y)) / DL) / 2))).
    + f_equal. rewrite <- exp_plus. f_equal. unfold form2, a11, a12, a22. field. lra.
    + unfold K, Rdiv. ring.
  - assert (V : nll_ulens_general solve flux M Cov mu ((l11, l12), (l12, l22)) =
       / 2 * (q + ln dC + ln DL + ln D)).
    { unfold nll_ulens_general.
      assert (L0 : length (map fst M) = n) by (rewrite map_length; exact LM).
      assert (L1 : length (map snd M) = n) by (rewrite map_length; exact LM).
      set (rl := map (fun p => fst p - (fst (snd p) * fst mu + snd (snd p) * snd mu)) (combine flux M)).
      assert (Lr : length rl = n) by (unfold rl; rewrite map_length, combine_length; lia).
      rewrite !(dot_sol n Cov P Hp Hi (solve Cov)) by assumption. fold Bp. fold u0 u1.
      assert (ER : forall i, (i < n)%nat -> nth i rl 0 = r i) by (intros i Hin; unfold rl; apply resid_nth; lia).
      assert (E1 : Bp u0 (fun i => nth i rl 0) = b1) by (apply B_ext; [reflexivity|exact ER]).
      assert (E2 : Bp u1 (fun i => nth i rl 0) = b2) by (apply B_ext; [reflexivity|exact ER]).
      assert (E3 : Bp (fun i => nth i rl 0) (fun i => nth i rl 0) = c) by (apply B_ext; exact ER).
      rewrite E1, E2, E3, (Bs u1 u0). fold DL. fold a11 a22 a12. fold D.
      rewrite !logdet2. fold DL D. unfold logabsdet. rewrite LC. fold dC.
      rewrite (Rabs_pos_eq DL), (Rabs_pos_eq D) by lra. replace 0.5 with (/ 2) by lra. do 4 f_equal. }
    rewrite V. rewrite ln_mult; [|exact PK|apply Rmult_lt_0_compat; [exact PR|apply exp_pos]].
    rewrite ln_mult; [|exact PR|apply exp_pos]. rewrite ln_exp.
    assert (LS : forall w, 0 < w -> ln (sqrt w) = ln w / 2).
    { intros w Hw. rewrite <- Rpower_sqrt by exact Hw. unfold Rpower. rewrite ln_exp. field. }
    assert (LP : ln (2 * PI / sqrt D) = ln (2 * PI) - ln D / 2).
    { unfold Rdiv. rewrite ln_mult; [|lra|apply Rinv_0_lt_compat; exact SD]. rewrite ln_Rinv, LS by assumption. lra. }
    assert (LK : ln K = - (INR n * ln (2 * PI) + ln dC) / 2 - ln (2 * PI) - ln DL / 2).
    { unfold K. rewrite ln_mult by (apply Rinv_0_lt_compat; assumption). rewrite !ln_Rinv by assumption.
      rewrite LS by (apply Rmult_lt_0_compat; assumption). rewrite (ln_mult ((2 * PI) ^ n) dC) by assumption.
      rewrite ln_pow by lra. rewrite (ln_mult (2 * PI) (sqrt DL)) by lra. rewrite (LS DL) by exact PL. field. }
    rewrite LP, LK. field.
Qed.

(** * diagonal covariance *)
Fixpoint diagc (d : list R) : list (list R) :=
  match d with [] => [] | x :: t => (x :: repeat 0 (length t)) :: map (cons 0) (diagc t) end.
Lemma map_const_seq {A} (f : nat -> A) a s n : (forall i, (s <= i < s + n)%nat -> f i = a) -> map f (seq s n) = repeat a n.
Proof.
  revert s. induction n as [|n IH]; intros s H; [reflexivity|]. cbn [seq map repeat]. f_equal; [apply H; lia|]. apply IH. intros; apply H; lia.
Qed.
Lemma diagonal_diagc d : diagonal d = diagc d.
Proof.
  unfold diagonal. induction d as [|x t IH]; [reflexivity|].
  cbn [length seq map diagc]. f_equal.
  - f_equal. apply map_const_seq. intros i Hi. destruct (Nat.eq_dec 0 i); [lia|reflexivity].
  - rewrite <- IH. rewrite <- seq_shift, !map_map. apply map_ext. intros i. cbn [nth].
    destruct (Nat.eq_dec (S i) 0); [lia|]. f_equal. rewrite map_map. apply map_ext. intros j.
    destruct (Nat.eq_dec (S i) (S j)); destruct (Nat.eq_dec i j); try lia; reflexivity.
Qed.
Fixpoint prodR (l : list R) : R := match l with [] => 1 | x :: t => x * prodR t end.
Lemma nth_repeat0 n j : nth j (repeat 0 n) 0 = 0.
Proof. revert j. induction n; intros [|j]; simpl; auto. Qed.
Lemma diagc_length d : length (diagc d) = length d.
Proof. induction d; simpl; [reflexivity|]. rewrite map_length. congruence. Qed.
Lemma det_diag d : det (length d) (diagonal d) = prodR d.
Proof.
  rewrite diagonal_diagc. induction d as [|x t IH]; [reflexivity|].
  cbn [length det diagc]. cbn [seq map sumR].
  rewrite map_map. assert (E : map (fun y : list R => drop_nth 0 (0 :: y)) (diagc t) = diagc t).
  { transitivity (map (fun y : list R => y) (diagc t)); [|apply map_id]. apply map_ext. reflexivity. }
  rewrite E, IH. cbn [nth pow].
  rewrite (map_ext_in _ (fun _ => 0)).
  - assert (Z : forall (l : list nat), sumR (map (fun _ => 0) l) = 0) by (induction l; simpl; lra). rewrite Z. cbn [prodR]. ring.
  - intros j Hj. apply in_seq in Hj. destruct j as [|j]; [lia|]. cbn [nth]. rewrite nth_repeat0. ring.
Qed.
Lemma diag_entry d i j : (i < length d)%nat -> (j < length d)%nat ->
  entry (diagonal d) i j = if Nat.eq_dec i j then nth i d 0 else 0.
Proof.
  intros Hi Hj. unfold entry, diagonal.
  rewrite (nth_map_lt _ _ _ 0%nat) by (rewrite seq_length; exact Hi). rewrite seq_nth by exact Hi.
  rewrite (nth_map_lt _ _ _ 0%nat) by (rewrite seq_length; exact Hj). rewrite seq_nth by exact Hj. reflexivity.
Qed.
Lemma diag_sol d sol v : (forall x, In x d -> x <> 0) -> solves (diagonal d) (length d) sol -> length v = length d ->
  sol v = map (fun p => fst p / snd p) (combine v d).
Proof.
  intros H S Lv. destruct (S v Lv) as [L E].
  apply (list_eq_nth 0).
  - rewrite map_length, combine_length. lia.
  - intros i Hi. rewrite L in Hi. specialize (E i Hi).
    rewrite (isum_ext _ _ (fun j => if Nat.eq_dec i j then nth i d 0 * nth j (sol v) 0 else 0)) in E.
    + rewrite (isum_delta _ i (fun j => nth i d 0 * nth j (sol v) 0) Hi) in E.
      rewrite (nth_map_lt _ _ _ (0, 0)) by (rewrite combine_length; lia). rewrite combine_nth by lia. cbn [fst snd].
      rewrite <- E. field. apply H. apply nth_In. exact Hi.
    + intros j Hj. rewrite (diag_entry d i j Hi Hj). destruct (Nat.eq_dec i j); ring.
Qed.
Lemma ln_prodR d : (forall x, In x d -> 0 < x) -> 0 < prodR d /\ ln (prodR d) = sumR (map ln d).
Proof.
  induction d as [|x t IH]; intros H; cbn [prodR map sumR]; [split; [lra|apply ln_1]|].
  destruct IH as [A B0]. { intros; apply H; right; assumption. }
  assert (0 < x) by (apply H; left; reflexivity). split; [apply Rmult_lt_0_compat; assumption|].
  rewrite ln_mult by assumption. rewrite B0. reflexivity.
Qed.
Lemma diag_agree solve flux M s2 sfs sfb : length M = length flux -> length s2 = length flux ->
  (forall v, In v s2 -> 0 < v) -> 0 < sfs -> 0 < sfb -> solves (diagonal s2) (length s2) (solve (diagonal s2)) ->
  nll_ulens_general solve flux M (diagonal s2) (0, 0) ((sfs, 0), (0, sfb)) = nll_ulens flux M s2 sfs sfb.
Proof.
  intros L1 L2 H P1 P2 S.
  assert (LM : length M = length s2) by congruence.
  destruct (normal_matrix M s2 sfs sfb LM H P1 P2) as (A1 & A2 & A3).
  assert (IP : 0 < / (sfs * sfb)) by (apply Rinv_0_lt_compat, Rmult_lt_0_compat; assumption).
  rewrite nll_value by lra. unfold nll_ulens_general.
  assert (NZ : forall x, In x s2 -> x <> 0) by (intros x Hx; specialize (H x Hx); lra).
  set (rl := map (fun p => fst p - (fst (snd p) * fst (0, 0) + snd (snd p) * snd (0, 0))) (combine flux M)).
  assert (ER : rl = flux).
  { apply (list_eq_nth 0).
    - unfold rl. rewrite map_length, combine_length. lia.
    - intros i Hi. unfold rl in *. rewrite map_length, combine_length in Hi.
      rewrite (nth_map_lt _ _ _ (0, (0, 0))) by (rewrite combine_length; lia). rewrite combine_nth by congruence. cbn [fst snd]. ring. }
  rewrite ER. rewrite !(diag_sol s2 (solve (diagonal s2))); try assumption; try (rewrite map_length; congruence); try congruence.
  fold (wsum (map fst M) (map fst M) s2). fold (wsum (map snd M) (map snd M) s2). fold (wsum (map fst M) (map snd M) s2).
  fold (wsum (map snd M) (map fst M) s2). fold (wsum (map fst M) flux s2). fold (wsum (map snd M) flux s2). fold (wsum flux flux s2).
  rewrite (wsum_sym (map snd M) (map fst M)). rewrite !logdet2. unfold logabsdet.
  assert (LD : length (diagonal s2) = length s2) by (unfold diagonal; rewrite map_length, seq_length; reflexivity).
  rewrite LD, det_diag. destruct (ln_prodR s2 H) as [PP LP]. rewrite (Rabs_pos_eq (prodR s2)) by lra. rewrite LP.
  assert (PL : 0 < sfs * sfb) by (apply Rmult_lt_0_compat; assumption).
  replace (sfs * sfb - 0 * 0) with (sfs * sfb) by ring. rewrite (Rabs_pos_eq (sfs * sfb)) by lra. rewrite (ln_mult sfs sfb) by assumption.
  replace (sfb / (sfs * sfb)) with (/ sfs) by (field; lra). replace (sfs / (sfs * sfb)) with (/ sfb) by (field; lra).
  replace (- 0 / (sfs * sfb)) with 0 by (field; lra). rewrite !Rplus_0_l.
  rewrite Rabs_pos_eq by lra. replace 0.5 with (/ 2) by lra. reflexivity.
Qed.

(** * well-definedness *)
Lemma wsum_wdot u : forall v s2, wsum u v s2 = wdot u v s2.
Proof.
  induction u as [|a u IH]; intros [|b v] [|s s2]; try reflexivity.
  rewrite wsum_cons, IH. cbn [wdot]. unfold Rdiv. ring.
Qed.
Lemma wsum_pair_nonneg flux : forall M s2 x y, length M = length flux -> length s2 = length flux -> (forall v, In v s2 -> 0 < v) ->
  0 <= wsum flux flux s2 - 2 * (wsum (map fst M) flux s2 * x + wsum (map snd M) flux s2 * y)
    + wsum (map fst M) (map fst M) s2 * (x * x) + 2 * wsum (map fst M) (map snd M) s2 * (x * y) + wsum (map snd M) (map snd M) s2 * (y * y).
Proof.
  induction flux as [|f flux IH]; intros [|[m k] M] [|s s2] x y L1 L2 H; try discriminate.
  - cbn. lra.
  - cbn [map fst snd]. rewrite !wsum_cons. specialize (IH M s2 x y). cbn [length] in *.
    assert (0 <= (f - m * x - k * y) * (f - m * x - k * y) / s).
    { assert (0 < s) by (apply H; left; reflexivity). apply Rmult_le_pos; [apply Rle_0_sqr|]. apply Rlt_le, Rinv_0_lt_compat. assumption. }
    assert (Hr : forall v, In v s2 -> 0 < v) by (intros; apply H; right; assumption).
    specialize (IH ltac:(lia) ltac:(lia) Hr). unfold Rdiv in *.
    match goal with |- 0 <= ?g => match type of IH with 0 <= ?h => replace g with (h + (f - m * x - k * y) * (f - m * x - k * y) * / s) by ring end end. lra.
Qed.
Lemma well_defined flux M s2 sfs sfb : length M = length flux -> length s2 = length flux ->
  (forall v, In v s2 -> 0 < v) -> 0 < sfs -> 0 < sfb ->
  let u := map fst M in let w := map snd M in
  let a11 := / sfs + wdot u u s2 in let a22 := / sfb + wdot w w s2 in let a12 := wdot u w s2 in
  let D := a11 * a22 - a12 * a12 in
  let q := wdot flux flux s2 - (a22 * wdot u flux s2 ^ 2 - 2 * a12 * wdot u flux s2 * wdot w flux s2 + a11 * wdot w flux s2 ^ 2) / D in
  0 < a11 /\ 0 < a22 /\ / (sfs * sfb) <= D /\ 0 <= q /\
  nll_ulens flux M s2 sfs sfb = (q + sumR (map ln s2) + ln sfs + ln sfb + ln D) / 2 /\
  sumR (map ln s2) / 2 <= nll_ulens flux M s2 sfs sfb.
Proof.
  intros L1 L2 H P1 P2 u w. rewrite <- !wsum_wdot. intros a11 a22 a12 D q.
  assert (LM : length M = length s2) by congruence.
  destruct (normal_matrix M s2 sfs sfb LM H P1 P2) as (A1 & A2 & A3). fold u w in A1, A2, A3. fold a11 a22 a12 in A1, A2, A3. fold D in A3.
  assert (IP : 0 < / (sfs * sfb)) by (apply Rinv_0_lt_compat, Rmult_lt_0_compat; assumption).
  assert (PD : 0 < D) by lra.
  assert (I1 : 0 < / sfs) by (apply Rinv_0_lt_compat; exact P1). assert (I2 : 0 < / sfb) by (apply Rinv_0_lt_compat; exact P2).
  assert (Q : 0 <= q).
  { pose proof (mahal_nonneg (wsum flux flux s2) (wsum u flux s2) (wsum w flux s2) a11 a12 a22 A2 PD) as F. fold D in F.
    match type of F with _ -> 0 <= ?x => replace q with x end.
    - apply F. intros x y. unfold form2. pose proof (wsum_pair_nonneg flux M s2 x y L1 L2 H) as W. fold u w in W.
      unfold a11, a12, a22. nra.
    - unfold q. field. lra. }
  assert (V : nll_ulens flux M s2 sfs sfb = (q + sumR (map ln s2) + ln sfs + ln sfb + ln D) / 2).
  { rewrite nll_value by (fold u w; fold a11 a22 a12; fold D; lra). fold u w. fold a11 a22 a12. fold D. unfold q. field. lra. }
  repeat (split; [assumption|]). rewrite V.
  assert (LD : - (ln sfs + ln sfb) <= ln D).
  { rewrite <- (ln_mult sfs sfb P1 P2), <- ln_Rinv by (apply Rmult_lt_0_compat; assumption). apply Rcomplements.ln_le; assumption. }
  lra.
Qed.
