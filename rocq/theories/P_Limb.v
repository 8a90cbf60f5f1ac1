(** Limb darkening and boundary proofs. *)
From Coq Require Import Reals List Bool ZArith Lia Lra.
From Coquelicot Require Import Coquelicot.
From Verif Require Import Base_R Base_List Base_Int M_PointSource M_Limb.
Import ListNotations.
Local Open Scope R_scope.

Ltac eqR := match goal with |- @eq _ ?a ?b => change (@eq R a b) end.
Definition Il (d u1 : R) : R := 3 / PI / (3 - u1) * (1 - u1 * (1 - sqrt (1 - d ^ 2))).
Lemma limb_in d u1 : 0 <= d < 1 -> Is_limb_1st d u1 = Some (Il d u1).
Proof.
  intros H. unfold Is_limb_1st. destruct (Rltb_spec d 1); [|lra]. destruct (Rleb_spec 0 (1 - d ^ 2)); [reflexivity|nra].
Qed.
Lemma limb_out d u1 : 1 <= d -> Is_limb_1st d u1 = Some 0.
Proof. intros H. unfold Is_limb_1st. destruct (Rltb_spec d 1); [lra|reflexivity]. Qed.

(** y * sqrt y has derivative 3/2 sqrt y, also at 0 (sqrt is 0 on the negative half-line) *)
Lemma d_ysqrt y : 0 <= y -> is_derive (fun y => y * sqrt y) y (3 / 2 * sqrt y).
Proof.
  intros [P|<-].
  - assert (S : 0 < sqrt y) by (apply sqrt_lt_R0; exact P).
    auto_derive; [exact P|]. set (s := sqrt y) in *.
    assert (E : y = s * s) by (unfold s; rewrite sqrt_sqrt; lra). rewrite E. field. lra.
  - rewrite sqrt_0, Rmult_0_r. apply is_derive_Reals. intros e He.
    exists (mkposreal (e * e) ltac:(nra)). intros h Hh Hd. simpl in Hd.
    rewrite Rplus_0_l, sqrt_0, Rmult_0_r, !Rminus_0_r.
    replace (h * sqrt h / h) with (sqrt h) by (field; exact Hh).
    rewrite Rabs_pos_eq by apply sqrt_pos. rewrite <- (sqrt_square e) by lra.
    destruct (Rle_lt_dec h 0) as [L|G].
    + rewrite (sqrt_neg_0 h L). apply sqrt_lt_R0. nra.
    + apply sqrt_lt_1; [lra|nra|]. apply Rabs_def2 in Hd. lra.
Qed.
(** moments of the profile: antiderivatives in d *)
Definition mu3 (d : R) : R := (1 - d ^ 2) * sqrt (1 - d ^ 2).
Lemma d_mu3 d : -1 <= d <= 1 -> is_derive mu3 d (- 3 * d * sqrt (1 - d ^ 2)).
Proof.
  intros H. replace (- 3 * d * sqrt (1 - d ^ 2)) with (- (2 * d) * (3 / 2 * sqrt (1 - d ^ 2))) by field.
  unfold mu3. apply (is_derive_comp (fun y => y * sqrt y) (fun d => 1 - d ^ 2)).
  - apply d_ysqrt. nra.
  - auto_derive; [exact I|ring].
Qed.
Lemma mu_moment (k : nat) (u1 c : R) (F : R -> R) :
  (forall d, 0 <= d <= 1 -> is_derive F d (d ^ k * sqrt (1 - d ^ 2))) -> F 1 - F 0 = c -> u1 <> 3 ->
  is_RInt (fun d => d ^ k * Il d u1) 0 1 (3 / PI / (3 - u1) * ((1 - u1) / INR (S k) + u1 * c)).
Proof.
  intros D E N. 
  set (K := 3 / PI / (3 - u1)).
  set (H := fun d => K * ((1 - u1) / INR (S k) * d ^ S k + u1 * F d)).
  assert (Hk : INR (S k) <> 0) by (apply not_0_INR; lia).
  replace (K * ((1 - u1) / INR (S k) + u1 * c)) with (H 1 - H 0).
  - apply I_derive. rewrite Rmin_left, Rmax_right by lra. intros d Hd. specialize (D d Hd).
    apply (is_derive_ext H H d); [intros; reflexivity|].
    replace (d ^ k * Il d u1) with (K * ((1 - u1) / INR (S k) * (INR (S k) * 1 * d ^ k) + u1 * (d ^ k * sqrt (1 - d ^ 2)))).
    + unfold H. apply is_derive_scal. apply (is_derive_plus (fun d => (1 - u1) / INR (S k) * d ^ S k) (fun d => u1 * F d)).
      * apply (is_derive_scal (fun d => d ^ S k)). apply (is_derive_pow (fun d => d) (S k) d 1). apply (is_derive_id (K := R_AbsRing)).
      * apply (is_derive_scal F). exact D.
    + unfold Il. fold K. field. exact Hk.
  - intros d _. unfold Il. fold K.
    apply (continuous_mult (fun d => d ^ k) (fun d => K * (1 - u1 * (1 - sqrt (1 - d ^ 2))))).
    + apply cont_is_derive with (l := INR k * 1 * d ^ pred k). apply (is_derive_pow (fun d => d) k d 1). apply (is_derive_id (K := R_AbsRing)).
    + apply (continuous_comp (fun d => sqrt (1 - d ^ 2)) (fun m => K * (1 - u1 * (1 - m)))).
      * apply (continuous_comp (fun d => 1 - d ^ 2) sqrt).
        -- apply cont_is_derive with (l := - (2 * d)). auto_derive; [exact I|ring].
        -- apply continuous_sqrt.
      * apply cont_is_derive with (l := K * u1). auto_derive; [exact I|ring].
  - unfold H. rewrite <- E, pow1, pow_i by lia. field. exact Hk.
Qed.
Lemma moment0 u1 : u1 <> 3 -> is_RInt (fun d => d ^ 1 * Il d u1) 0 1 (/ (2 * PI)).
Proof.
  intros N. pose proof PI_RGT_0.
  replace (/ (2 * PI)) with (3 / PI / (3 - u1) * ((1 - u1) / INR 2 + u1 * (1 / 3))) by (simpl; field; split; lra).
  apply (mu_moment 1 u1 (1 / 3) (fun d => - (1 / 3) * mu3 d)); [|unfold mu3|exact N].
  - intros d Hd. replace (d ^ 1 * sqrt (1 - d ^ 2)) with (- (1 / 3) * (- 3 * d * sqrt (1 - d ^ 2))) by (simpl; field).
    apply is_derive_scal, d_mu3. lra.
  - replace (1 - 1 ^ 2) with 0 by ring. replace (1 - 0 ^ 2) with 1 by ring. rewrite sqrt_0, sqrt_1. field.
Qed.
Lemma moment2 u1 : u1 <> 3 -> is_RInt (fun d => d ^ 3 * Il d u1) 0 1 (/ (2 * PI) * (1 / 2 * (1 - 2 * u1 / (3 - u1) / 5))).
Proof.
  intros N. pose proof PI_RGT_0.
  replace (/ (2 * PI) * (1 / 2 * (1 - 2 * u1 / (3 - u1) / 5))) with (3 / PI / (3 - u1) * ((1 - u1) / INR 4 + u1 * (2 / 15))) by (simpl; field; split; lra).
  apply (mu_moment 3 u1 (2 / 15) (fun d => - (1 / 3) * mu3 d + 1 / 5 * ((1 - d ^ 2) * mu3 d))); [|unfold mu3|exact N].
  - intros d Hd.
    replace (d ^ 3 * sqrt (1 - d ^ 2)) with
      (- (1 / 3) * (- 3 * d * sqrt (1 - d ^ 2)) + 1 / 5 * (- (2 * d) * mu3 d + (1 - d ^ 2) * (- 3 * d * sqrt (1 - d ^ 2)))).
    + apply (is_derive_plus (fun d => - (1 / 3) * mu3 d) (fun d => 1 / 5 * ((1 - d ^ 2) * mu3 d))).
      * apply is_derive_scal, d_mu3. lra.
      * apply (is_derive_scal (fun d => (1 - d ^ 2) * mu3 d)).
        apply (is_derive_mult (fun d => 1 - d ^ 2) mu3); [|apply d_mu3; lra|intros; apply Rmult_comm].
        auto_derive; [exact I|ring].
    + unfold mu3. field.
  - replace (1 - 1 ^ 2) with 0 by ring. replace (1 - 0 ^ 2) with 1 by ring. rewrite sqrt_0, sqrt_1. field.
Qed.
Lemma moment4 u1 : u1 <> 3 -> is_RInt (fun d => d ^ 5 * Il d u1) 0 1 (/ (2 * PI) * (1 / 3 * (1 - 11 * (2 * u1 / (3 - u1)) / 35))).
Proof.
  intros N. pose proof PI_RGT_0.
  replace (/ (2 * PI) * (1 / 3 * (1 - 11 * (2 * u1 / (3 - u1)) / 35))) with (3 / PI / (3 - u1) * ((1 - u1) / INR 6 + u1 * (8 / 105))) by (simpl; field; split; lra).
  apply (mu_moment 5 u1 (8 / 105) (fun d => - (1 / 3) * mu3 d + (2 / 5 * ((1 - d ^ 2) * mu3 d) + - (1 / 7) * ((1 - d ^ 2) ^ 2 * mu3 d)))); [|unfold mu3|exact N].
  - intros d Hd.
    replace (d ^ 5 * sqrt (1 - d ^ 2)) with
      (- (1 / 3) * (- 3 * d * sqrt (1 - d ^ 2)) + (2 / 5 * (- (2 * d) * mu3 d + (1 - d ^ 2) * (- 3 * d * sqrt (1 - d ^ 2)))
        + - (1 / 7) * (- (4 * d * (1 - d ^ 2)) * mu3 d + (1 - d ^ 2) ^ 2 * (- 3 * d * sqrt (1 - d ^ 2))))).
    + apply (is_derive_plus (fun d => - (1 / 3) * mu3 d) (fun d => 2 / 5 * ((1 - d ^ 2) * mu3 d) + - (1 / 7) * ((1 - d ^ 2) ^ 2 * mu3 d))).
      * apply is_derive_scal, d_mu3. lra.
      * apply (is_derive_plus (fun d => 2 / 5 * ((1 - d ^ 2) * mu3 d)) (fun d => - (1 / 7) * ((1 - d ^ 2) ^ 2 * mu3 d))).
        -- apply (is_derive_scal (fun d => (1 - d ^ 2) * mu3 d)).
           apply (is_derive_mult (fun d => 1 - d ^ 2) mu3); [|apply d_mu3; lra|intros; apply Rmult_comm].
           auto_derive; [exact I|ring].
        -- apply (is_derive_scal (fun d => (1 - d ^ 2) ^ 2 * mu3 d)).
           apply (is_derive_mult (fun d => (1 - d ^ 2) ^ 2) mu3); [|apply d_mu3; lra|intros; apply Rmult_comm].
           auto_derive; [exact I|ring].
    + unfold mu3. field.
  - replace (1 - 1 ^ 2) with 0 by ring. replace (1 - 0 ^ 2) with 1 by ring. rewrite sqrt_0, sqrt_1. field.
Qed.
(** any pointwise reading of the model integrates the same over [0, X] *)
Lemma moment_all (k : nat) u1 X (f : R -> R) v : 1 <= X -> (forall d, 0 <= d -> Is_limb_1st d u1 = Some (f d)) ->
  is_RInt (fun d => d ^ k * Il d u1) 0 1 (/ (2 * PI) * v) -> is_RInt (fun d => 2 * PI * d ^ k * f d) 0 X v.
Proof.
  intros HX Hf H. pose proof PI_RGT_0.
  replace v with (2 * PI * (/ (2 * PI) * v) + 0) by (field; lra).
  apply (is_RInt_Chasles (V := R_NormedModule) _ 0 1 X).
  - apply (is_RInt_ext (fun d => 2 * PI * (d ^ k * Il d u1))).
    + rewrite Rmin_left, Rmax_right by lra. intros d Hd. specialize (Hf d ltac:(lra)). rewrite limb_in in Hf by lra.
      injection Hf as <-. eqR. ring.
    + apply (is_RInt_scal (V := R_NormedModule)). exact H.
  - apply (is_RInt_ext (fun _ => 0)).
    + rewrite Rmin_left, Rmax_right by lra. intros d Hd. specialize (Hf d ltac:(lra)). rewrite limb_out in Hf by lra.
      injection Hf as <-. eqR. ring.
    + pose proof (is_RInt_const (V := R_NormedModule) 1 X 0) as C0. unfold scal in C0. simpl in C0. unfold mult in C0. simpl in C0.
      rewrite Rmult_0_r in C0. exact C0.
Qed.
Lemma limb_shape u1 d d' v v' : 0 <= u1 <= 1 -> 0 <= d <= d' -> Is_limb_1st d u1 = Some v -> Is_limb_1st d' u1 = Some v' -> 0 <= v' <= v.
Proof.
  intros Hu Hd. pose proof PI_RGT_0.
  assert (K : 0 < 3 / PI / (3 - u1)) by (repeat apply Rdiv_lt_0_compat; lra).
  assert (P : forall e, 0 <= e < 1 -> 0 <= Il e u1).
  { intros e He. unfold Il. apply Rmult_le_pos; [lra|]. pose proof (sqrt_pos (1 - e ^ 2)). nra. }
  destruct (Rlt_le_dec d' 1) as [L|G].
  - rewrite !limb_in by lra. intros [= <-] [= <-]. split; [apply P; lra|]. unfold Il.
    apply Rmult_le_compat_l; [lra|]. assert (sqrt (1 - d' ^ 2) <= sqrt (1 - d ^ 2)) by (apply sqrt_le_1; nra). nra.
  - rewrite (limb_out d') by exact G. intros Hv [= <-]. split; [lra|].
    destruct (Rlt_le_dec d 1) as [L|G'].
    + rewrite limb_in in Hv by lra. injection Hv as <-. apply P. lra.
    + rewrite limb_out in Hv by exact G'. injection Hv as <-. lra.
Qed.
(** Brightness is negative near the limb when u1 is between 1 and 3 *)
Lemma limb_negative u1 : 1 < u1 < 3 -> exists d v, 0 < d < 1 /\ Is_limb_1st d u1 = Some v /\ v < 0.
Proof.
  intros Hu. pose proof PI_RGT_0. assert (K : 0 < 3 / PI / (3 - u1)) by (repeat apply Rdiv_lt_0_compat; lra).
  (* mu = (u1-1)/(2 u1) <= 1/3 *)
  set (m := (u1 - 1) / (2 * u1)). assert (Hm : u1 * m = (u1 - 1) / 2) by (unfold m; field; lra).
  assert (M0 : 0 < m) by (unfold m; apply Rdiv_lt_0_compat; lra).
  assert (M1 : m < 1) by nra.
  exists (sqrt (1 - m * m)), (Il (sqrt (1 - m * m)) u1).
  assert (S1 : 0 < sqrt (1 - m * m)) by (apply sqrt_lt_R0; nra).
  assert (S2 : sqrt (1 - m * m) < 1) by (rewrite <- sqrt_1 at 2; apply sqrt_lt_1; nra).
  split; [lra|]. split; [apply limb_in; lra|]. unfold Il.
  replace (1 - sqrt (1 - m * m) ^ 2) with (m * m) by (rewrite pow2_sqrt by nra; ring).
  rewrite sqrt_square by lra. nra.
Qed.

(** * contour profile *)
Lemma safe_sqrt_eq x : safe_sqrt x = sqrt x.
Proof.
  unfold safe_sqrt. destruct (Rltb_spec 0 x); [reflexivity|]. rewrite sqrt_0. symmetry. apply sqrt_neg_0. lra.
Qed.
Lemma brightness_inside r u1 : 0 <= r < 1 -> Is_limb_1st r u1 = Some (brightness_r r u1 / PI).
Proof.
  intros H. rewrite limb_in by exact H. unfold Il, brightness_r. destruct (Rleb_spec r 1); [|lra]. rewrite safe_sqrt_eq.
  f_equal. pose proof PI_RGT_0. unfold Rdiv. generalize (/ (3 - u1)). intros k. field. lra.
Qed.
Lemma brightness_reciprocal r u1 : 0 < r -> u1 <> 3 ->
  brightness_r r u1 + brightness_r (/ r) u1 = 6 * (1 - u1) / (3 - u1).
Proof.
  intros Hr Hu. unfold brightness_r. rewrite !safe_sqrt_eq.
  destruct (Rleb_spec r 1) as [L|G]; destruct (Rleb_spec (/ r) 1) as [L'|G'].
  - assert (r = 1). { apply Rle_antisym; [exact L|]. rewrite <- (Rinv_inv r), <- Rinv_1. apply Rinv_le_contravar; [apply Rinv_0_lt_compat; exact Hr|exact L']. }
    subst r. rewrite Rinv_1. replace (1 - 1 ^ 2) with 0 by ring. rewrite sqrt_0. field. lra.
  - replace (1 - 1 / (/ r) ^ 2) with (1 - r ^ 2) by (field; lra). field. lra.
  - replace (1 - 1 / r ^ 2) with (1 - (/ r) ^ 2) by (field; lra). field. lra.
  - exfalso. assert (/ r < 1) by (rewrite <- Rinv_1; apply Rinv_lt_contravar; lra). lra.
Qed.
Lemma brightness_uniform r : brightness_r r 0 = 1.
Proof. unfold brightness_r. field. Qed.
Lemma brightness_bounds r u1 : 0 <= r -> 0 <= u1 <= 1 ->
  3 * (1 - 2 * u1) / (3 - u1) <= brightness_r r u1 <= 3 / (3 - u1).
Proof.
  intros Hr Hu. unfold brightness_r. rewrite !safe_sqrt_eq. assert (K : 0 < / (3 - u1)) by (apply Rinv_0_lt_compat; lra).
  assert (B : 0 <= (if Rleb r 1 then 1 + sqrt (1 - r ^ 2) else 1 - sqrt (1 - 1 / r ^ 2)) <= 2).
  { destruct (Rleb_spec r 1).
    - pose proof (sqrt_pos (1 - r ^ 2)). assert (sqrt (1 - r ^ 2) <= 1); [|lra]. rewrite <- sqrt_1 at 2. apply sqrt_le_1_alt. nra.
    - pose proof (sqrt_pos (1 - 1 / r ^ 2)). assert (sqrt (1 - 1 / r ^ 2) <= sqrt 1); [|rewrite sqrt_1 in *; lra]. apply sqrt_le_1_alt.
      assert (0 < 1 / r ^ 2) by (apply Rdiv_lt_0_compat; nra). lra. }
  set (b := if Rleb r 1 then _ else _) in *. unfold Rdiv. clearbody b.
  assert (0 <= u1 * b <= 2 * u1) by nra. set (k := / (3 - u1)) in *. clearbody k. set (m := u1 * b) in *. clearbody m. split; nra.
Qed.
(** continuity at the limb, which the Green's-theorem integration needs: both sides agree at r = 1 *)
Lemma brightness_limb u1 : brightness_r 1 u1 = 3 / (3 - u1) * (1 - u1).
Proof.
  unfold brightness_r. rewrite safe_sqrt_eq. destruct (Rleb_spec 1 1); [|lra]. replace (1 - 1 ^ 2) with 0 by ring. rewrite sqrt_0. ring.
Qed.

(** * custom derivative rules *)
Lemma sigmoid_range x : 0 < sigmoid x < 1.
Proof.
  unfold sigmoid. pose proof (exp_pos (- x)). split; [apply Rdiv_lt_0_compat; lra|].
  apply (Rmult_lt_reg_r (1 + exp (- x))); [lra|]. unfold Rdiv. rewrite Rmult_assoc, Rinv_l; lra.
Qed.
Lemma d_sigmoid x : is_derive sigmoid x (sigmoid x * (1 - sigmoid x)).
Proof.
  unfold sigmoid. pose proof (exp_pos (- x)). auto_derive; [lra|]. field. lra.
Qed.
Lemma d_sigmoid_comp (g : R -> R) t l : is_derive g t l -> is_derive (fun t => sigmoid (g t)) t (l * (sigmoid (g t) * (1 - sigmoid (g t)))).
Proof. intros H. apply (is_derive_comp sigmoid g t _ l); [apply d_sigmoid|exact H]. Qed.
Lemma step_rule x fac dx df :
  fst (step_smooth_jvp x fac dx df) = step_smooth x fac /\ (0 < x -> step_smooth x fac = 1) /\ (x <= 0 -> step_smooth x fac = 0) /\
  is_derive (fun t => sigmoid ((x + t * dx) * (fac + t * df))) 0 (snd (step_smooth_jvp x fac dx df)).
Proof.
  split; [reflexivity|]. split; [|split]; [intros H; unfold step_smooth; destruct (Rltb_spec 0 x); lra..|]. unfold step_smooth_jvp. cbv zeta. cbn [snd].
  replace (x * fac) with ((x + 0 * dx) * (fac + 0 * df)) by ring.
  replace (dx * (sigmoid ((x + 0 * dx) * (fac + 0 * df)) * (1 - sigmoid ((x + 0 * dx) * (fac + 0 * df)))) * fac
    + df * (sigmoid ((x + 0 * dx) * (fac + 0 * df)) * (1 - sigmoid ((x + 0 * dx) * (fac + 0 * df)))) * x)
    with ((dx * fac + x * df) * (sigmoid ((x + 0 * dx) * (fac + 0 * df)) * (1 - sigmoid ((x + 0 * dx) * (fac + 0 * df))))) by ring.
  apply d_sigmoid_comp with (g := fun t => (x + t * dx) * (fac + t * df)). auto_derive; [exact I|ring].
Qed.
Lemma in_source_rule d rho dd dr : rho <> 0 ->
  is_derive (fun t => sigmoid (100 * (((rho + t * dr) - (d + t * dd)) / (rho + t * dr)))) 0 (snd (in_source_jvp d rho dd dr)).
Proof.
  intros H. unfold in_source_jvp. cbv zeta. cbn [snd].
  set (g := fun t => 100 * (((rho + t * dr) - (d + t * dd)) / (rho + t * dr))).
  assert (E : 100 * ((rho - d) / rho) = g 0) by (unfold g; rewrite !Rmult_0_l, !Rplus_0_r; reflexivity). rewrite E.
  replace (sigmoid (g 0) * (1 - sigmoid (g 0)) * 100 * (-1 / rho * dd + d / rho ^ 2 * dr)) with
    ((100 * (-1 / rho * dd + d / rho ^ 2 * dr)) * (sigmoid (g 0) * (1 - sigmoid (g 0)))) by ring.
  apply d_sigmoid_comp. unfold g. auto_derive; [rewrite Rmult_0_l, Rplus_0_r; exact H|]. field. exact H.
Qed.
Lemma in_source_primal d rho dd dr : fst (in_source_jvp d rho dd dr) <> in_source d rho.
Proof.
  unfold in_source_jvp, in_source. cbn [fst]. pose proof (sigmoid_range (100 * ((rho - d) / rho))).
  destruct (Rltb_spec (d - rho) 0); lra.
Qed.
Lemma sigmoid_opp x : sigmoid (- x) = 1 - sigmoid x.
Proof.
  unfold sigmoid. rewrite Ropp_involutive, exp_Ropp. pose proof (exp_pos x). field. split; [lra|]. 
  assert (0 < / exp x) by (apply Rinv_0_lt_compat; lra). lra.
Qed.
Lemma in_source_gap d rho dd dr : 0 < rho ->
  Rabs (fst (in_source_jvp d rho dd dr) - in_source d rho) = sigmoid (- (100 * (Rabs (rho - d) / rho))).
Proof.
  intros H. unfold in_source_jvp, in_source. cbn [fst]. pose proof (sigmoid_range (100 * ((rho - d) / rho))).
  destruct (Rltb_spec (d - rho) 0).
  - rewrite (Rabs_pos_eq (rho - d)) by lra. rewrite sigmoid_opp, Rabs_left by lra. ring.
  - rewrite (Rabs_left1 (rho - d)) by lra. rewrite Rabs_pos_eq by lra.
    replace (- (100 * (- (rho - d) / rho))) with (100 * ((rho - d) / rho)) by (field; lra). ring.
Qed.
Lemma facB_primal x c dx dc : fst (calc_facB_jvp x c dx dc) = calc_facB x c.
Proof. reflexivity. Qed.
Lemma facB_linear x c dx dc : x < c ->
  is_derive (fun t => calc_facB (x + t * dx) (c + t * dc)) 0 (snd (calc_facB_jvp x c dx dc)).
Proof.
  intros H. cbn [snd calc_facB_jvp].
  apply (is_derive_ext_loc (fun t => 2 / 3 * (x + t * dx) + 0.5)).
  - assert (P : 0 < (c - x) / (Rabs dx + Rabs dc + 1)).
    { apply Rdiv_lt_0_compat; [lra|]. pose proof (Rabs_pos dx). pose proof (Rabs_pos dc). lra. }
    exists (mkposreal _ P). intros t Ht.
    unfold ball in Ht. simpl in Ht. unfold AbsRing_ball, abs, minus, plus, opp in Ht. simpl in Ht. rewrite Ropp_0, Rplus_0_r in Ht.
    unfold calc_facB. destruct (Rltb_spec (c + t * dc) (x + t * dx)); [|reflexivity]. exfalso.
    pose proof (Rabs_pos dx). pose proof (Rabs_pos dc).
    assert (Rabs t * (Rabs dx + Rabs dc + 1) < c - x).
    { apply (Rmult_lt_compat_r (Rabs dx + Rabs dc + 1)) in Ht; [|lra]. unfold Rdiv in Ht. rewrite Rmult_assoc, Rinv_l, Rmult_1_r in Ht by lra. exact Ht. }
    pose proof (Rle_abs (t * dx)) as B1. rewrite Rabs_mult in B1.
    pose proof (Rle_abs (- (t * dc))) as B2. rewrite Rabs_Ropp, Rabs_mult in B2. pose proof (Rabs_pos t). nra.
  - auto_derive; [exact I|ring].
Qed.
(** derivative on the other branch *)
Lemma facB_upper_derive x c : 0 < x -> c < x ->
  is_derive (fun y => calc_facB y c) x (2 / 3 * sqrt (1 + 0.5 / x) * (1 - 1 / (4 * x))).
Proof.
  intros Hx Hc. assert (P : 0 < 0.5 / x) by (apply Rdiv_lt_0_compat; lra).
  apply (is_derive_ext_loc (fun y => 2 / 3 * sqrt (1 + 0.5 / y) * (0.5 + y))).
  - exists (mkposreal (x - c) ltac:(lra)). intros t Ht.
    unfold ball in Ht. simpl in Ht. unfold AbsRing_ball, abs, minus, plus, opp in Ht. simpl in Ht. apply Rabs_def2 in Ht.
    unfold calc_facB. destruct (Rltb_spec c t); [reflexivity|lra].
  - assert (S : 0 < sqrt (1 + 0.5 / x)) by (apply sqrt_lt_R0; lra).
    auto_derive; [split; [lra|split; [|exact I]]; unfold Rdiv in *; lra|].
    replace (1 + 0.5 * / x) with (1 + 0.5 / x) by reflexivity. set (s := sqrt (1 + 0.5 / x)) in *.
    assert (E : s * s = 1 + 0.5 / x) by (unfold s; rewrite sqrt_sqrt; lra).
    (* (1/2 + x) = x s^2 *)
    assert (E2 : 0.5 + x = x * (s * s)) by (rewrite E; field; lra). rewrite E2. replace 0.5 with (1 / 2) by lra. field. split; lra.
Qed.
Lemma facB_upper_wrong x : 0 < x -> 2 / 3 * sqrt (1 + 0.5 / x) * (1 - 1 / (4 * x)) <> 2 / 3.
Proof.
  intros Hx E. assert (P : 0 < 0.5 / x) by (apply Rdiv_lt_0_compat; lra).
  assert (S : 0 < sqrt (1 + 0.5 / x)) by (apply sqrt_lt_R0; lra). set (s := sqrt (1 + 0.5 / x)) in *.
  assert (E2 : s * s = 1 + 0.5 / x) by (unfold s; rewrite sqrt_sqrt; lra).
  assert (E1 : s * (1 - 1 / (4 * x)) = 1) by lra.
  set (k := / x) in *. assert (K : 0 < k) by (unfold k; apply Rinv_0_lt_compat; exact Hx).
  assert (E3 : s * (1 - k / 4) = 1) by (replace (s * (1 - k / 4)) with (s * (1 - 1 / (4 * x))); [exact E1|unfold k; field; lra]).
  assert (E4 : s * s = 1 + k / 2) by (rewrite E2; unfold k; replace 0.5 with (1 / 2) by lra; field; lra).
  assert (Q : 0 < 1 - k / 4) by nra.
  assert (E5 : (s * s) * ((1 - k / 4) * (1 - k / 4)) = 1) by (replace ((s * s) * ((1 - k / 4) * (1 - k / 4))) with ((s * (1 - k / 4)) * (s * (1 - k / 4))) by ring; rewrite E3; ring).
  rewrite E4 in E5.
  assert (E6 : k * k * (k / 32 - 3 / 16) = 0) by nra.
  assert (k / 32 - 3 / 16 = 0) by (apply Rmult_integral in E6; destruct E6 as [E6|E6]; [nra|exact E6]). nra.
Qed.
(** limb-darkening rule *)
Lemma limb_primal d u1 dd du : 0 <= d < 1 -> 1e-3 <= 1 - d ^ 2 -> Is_limb_1st d u1 = Some (Il d u1) /\
  fst (Is_limb_1st_jvp d u1 dd du) = Il d u1 * sigmoid (100 * (1 - d)).
Proof.
  intros H H3. split; [apply limb_in; exact H|]. unfold Is_limb_1st_jvp. cbv zeta. cbn [fst].
  rewrite Rmax_right by exact H3. reflexivity.
Qed.
Lemma limb_primal_wrong d u1 dd du v : 0 <= d -> 0 <= u1 < 1 -> Is_limb_1st d u1 = Some v ->
  1e-3 <= 1 - d ^ 2 \/ 1 <= d -> fst (Is_limb_1st_jvp d u1 dd du) <> v.
Proof.
  intros Hd Hu Hv Hor. pose proof PI_RGT_0. assert (K : 0 < 3 / PI / (3 - u1)) by (repeat apply Rdiv_lt_0_compat; lra).
  pose proof (sigmoid_range (100 * (1 - d))) as SR.
  destruct Hor as [H3|Ho].
  - assert (d < 1) by nra. destruct (limb_primal d u1 dd du) as [A B]; [lra|exact H3|]. rewrite B. rewrite A in Hv. injection Hv as <-.
    assert (0 < Il d u1). { unfold Il. apply Rmult_lt_0_compat; [exact K|]. pose proof (sqrt_pos (1 - d ^ 2)). nra. }
    nra.
  - rewrite limb_out in Hv by exact Ho. injection Hv as <-. unfold Is_limb_1st_jvp. cbv zeta. cbn [fst].
    pose proof (sqrt_pos (Rmax 1e-3 (1 - d ^ 2))).
    assert (0 < 3 / PI / (3 - u1) * (1 - u1 * (1 - sqrt (Rmax 1e-3 (1 - d ^ 2)))) * sigmoid (100 * (1 - d))); [|lra].
    apply Rmult_lt_0_compat; [|lra]. apply Rmult_lt_0_compat; [exact K|]. nra.
Qed.
(** tangent in d is the derivative of the surrogate away from the clamp *)
Lemma limb_rule_d d u1 dd : 1e-3 < 1 - d ^ 2 ->
  is_derive (fun t => Il (d + t * dd) u1 * sigmoid (100 * (1 - (d + t * dd)))) 0 (snd (Is_limb_1st_jvp d u1 dd 0)).
Proof.
  intros H. unfold Is_limb_1st_jvp. cbv zeta. cbn [snd]. rewrite Rmax_right by lra.
  assert (S : 0 < sqrt (1 - d ^ 2)) by (apply sqrt_lt_R0; lra).
  set (K := 3 / PI / (3 - u1)).
  set (g := fun t => 100 * (1 - (d + t * dd))).
  assert (G0 : 100 * (1 - d) = g 0) by (unfold g; ring). rewrite G0.
  assert (D1 : is_derive (fun t => Il (d + t * dd) u1) 0 (K * u1 * (- d / sqrt (1 - d ^ 2)) * dd)).
  { unfold Il. fold K. auto_derive.
    - rewrite Rmult_0_l, Rplus_0_r. simpl in H |- *. lra.
    - rewrite Rmult_0_l, Rplus_0_r. replace (1 + - (d * (d * 1))) with (1 - d ^ 2) by ring. field. lra. }
  assert (D2 : is_derive (fun t => sigmoid (g t)) 0 ((- 100 * dd) * (sigmoid (g 0) * (1 - sigmoid (g 0))))).
  { apply d_sigmoid_comp. unfold g. auto_derive; [exact I|ring]. }
  pose proof (is_derive_mult _ _ _ _ _ D1 D2 (fun n m => Rmult_comm n m)) as D. unfold mult, plus in D. simpl in D.
  match goal with |- is_derive _ _ ?v => match type of D with is_derive _ _ ?w => replace v with w end end; [exact D|].
  rewrite Rmult_0_l, Rplus_0_r. unfold Il. fold K. simpl. ring.
Qed.
(** tangent in u1: the true derivative of the surrogate is different whenever the profile is not zero *)
Lemma limb_rule_u1 d u1 : 1e-3 <= 1 - d ^ 2 -> u1 <> 3 ->
  is_derive (fun u => Il d u * sigmoid (100 * (1 - d))) u1
    (snd (Is_limb_1st_jvp d u1 0 1) + 6 / PI / (3 - u1) ^ 2 * (1 - u1 * (1 - sqrt (1 - d ^ 2))) * sigmoid (100 * (1 - d))).
Proof.
  intros H N. pose proof PI_RGT_0. unfold Is_limb_1st_jvp. cbv zeta. cbn [snd]. rewrite Rmax_right by exact H.
  set (m := sqrt (1 - d ^ 2)). set (s := sigmoid (100 * (1 - d))). unfold Il. fold m.
  assert (N' : 3 - u1 <> 0) by (intros Q; apply N; lra).
  auto_derive; [repeat split; try exact I; exact N'|]. field. assert (0 < m) by (unfold m; apply sqrt_lt_R0; lra).
  split; [lra|split; [exact N'|lra]].
Qed.
Lemma limb_rule_d' f d u1 dd : (forall e, 0 <= e < 1 -> Is_limb_1st e u1 = Some (f e)) -> 0 < d -> 1e-3 < 1 - d ^ 2 ->
  is_derive (fun t => f (d + t * dd) * sigmoid (100 * (1 - (d + t * dd)))) 0 (snd (Is_limb_1st_jvp d u1 dd 0)).
Proof.
  intros Hf Hd H. apply (is_derive_ext_loc (fun t => Il (d + t * dd) u1 * sigmoid (100 * (1 - (d + t * dd))))).
  2:{ apply limb_rule_d; exact H. }
  assert (d < 1) by nra.
  assert (P : 0 < Rmin d (1 - d) / (Rabs dd + 1)).
  { apply Rdiv_lt_0_compat; [apply Rmin_pos; lra|]. pose proof (Rabs_pos dd). lra. }
  exists (mkposreal _ P). intros t Ht.
  unfold ball in Ht. simpl in Ht. unfold AbsRing_ball, abs, minus, plus, opp in Ht. simpl in Ht. rewrite Ropp_0, Rplus_0_r in Ht.
  assert (B : Rabs (t * dd) < Rmin d (1 - d)).
  { pose proof (Rabs_pos dd). pose proof (Rabs_pos t). rewrite Rabs_mult.
    apply (Rmult_lt_compat_r (Rabs dd + 1)) in Ht; [|lra]. unfold Rdiv in Ht. rewrite Rmult_assoc, Rinv_l, Rmult_1_r in Ht by lra. nra. }
  apply Rabs_def2 in B. pose proof (Rmin_l d (1 - d)). pose proof (Rmin_r d (1 - d)).
  f_equal. specialize (Hf (d + t * dd) ltac:(lra)). rewrite limb_in in Hf by lra. injection Hf as ->. reflexivity.
Qed.
Lemma limb_rule_u1_wrong f d u1 D : (forall u, Is_limb_1st d u = Some (f u)) -> 0 <= d -> 1e-3 <= 1 - d ^ 2 -> 0 <= u1 < 1 ->
  is_derive (fun u => f u * sigmoid (100 * (1 - d))) u1 D -> snd (Is_limb_1st_jvp d u1 0 1) < D.
Proof.
  intros Hf Hd H Hu HD. assert (d < 1) by nra.
  assert (E : forall u, Il d u = f u). { intros u. specialize (Hf u). rewrite limb_in in Hf by lra. injection Hf as <-. reflexivity. }
  assert (HD' : is_derive (fun u => Il d u * sigmoid (100 * (1 - d))) u1 D).
  { revert HD. apply is_derive_ext. intros t. rewrite E. reflexivity. }
  apply is_derive_unique in HD'. pose proof (is_derive_unique _ _ _ (limb_rule_u1 d u1 H ltac:(lra))) as T. rewrite T in HD'. rewrite <- HD'.
  pose proof PI_RGT_0. pose proof (sigmoid_range (100 * (1 - d))) as SR. pose proof (sqrt_pos (1 - d ^ 2)) as SP.
  assert (0 < 6 / PI / (3 - u1) ^ 2) by (repeat apply Rdiv_lt_0_compat; nra).
  assert (0 < 1 - u1 * (1 - sqrt (1 - d ^ 2))) by nra.
  assert (0 < 6 / PI / (3 - u1) ^ 2 * (1 - u1 * (1 - sqrt (1 - d ^ 2))) * sigmoid (100 * (1 - d))); [|lra].
  apply Rmult_lt_0_compat; [apply Rmult_lt_0_compat; assumption|lra].
Qed.
Lemma limb_defined d u1 : 0 <= d -> exists v, Is_limb_1st d u1 = Some v.
Proof.
  intros H. destruct (Rlt_le_dec d 1); [rewrite limb_in by lra|rewrite limb_out by assumption]; eexists; reflexivity.
Qed.
Lemma limb_flux u1 X f : u1 <> 3 -> 1 <= X -> (forall d, 0 <= d -> Is_limb_1st d u1 = Some (f d)) ->
  is_RInt (fun d => 2 * PI * d ^ 1 * f d) 0 X 1.
Proof.
  intros N HX Hf. pose proof PI_RGT_0. apply (moment_all 1 u1 X f 1 HX Hf). rewrite Rmult_1_r. apply moment0; exact N.
Qed.
Lemma limb_mom2 u1 X f : u1 <> 3 -> 1 <= X -> (forall d, 0 <= d -> Is_limb_1st d u1 = Some (f d)) ->
  is_RInt (fun d => 2 * PI * d ^ 3 * f d) 0 X (1 / 2 * (1 - 2 * u1 / (3 - u1) / 5)).
Proof. intros N HX Hf. apply (moment_all 3 u1 X f _ HX Hf). apply moment2; exact N. Qed.
Lemma limb_mom4 u1 X f : u1 <> 3 -> 1 <= X -> (forall d, 0 <= d -> Is_limb_1st d u1 = Some (f d)) ->
  is_RInt (fun d => 2 * PI * d ^ 5 * f d) 0 X (1 / 3 * (1 - 11 * (2 * u1 / (3 - u1)) / 35)).
Proof. intros N HX Hf. apply (moment_all 5 u1 X f _ HX Hf). apply moment4; exact N. Qed.
Lemma limb_uniform d : 0 <= d < 1 -> Is_limb_1st d 0 = Some (/ PI).
Proof. intros H. rewrite limb_in by exact H. f_equal. unfold Il. pose proof PI_RGT_0. field. lra. Qed.
Lemma limb_centre_edge u1 : Is_limb_1st 0 u1 = Some (3 / PI / (3 - u1)).
Proof. rewrite limb_in by lra. f_equal. unfold Il. replace (1 - 0 ^ 2) with 1 by ring. rewrite sqrt_1. ring. Qed.
Lemma facB_rule_wrong x c D : 0 < x -> c < x -> is_derive (fun y => calc_facB y c) x D ->
  D <> snd (calc_facB_jvp x c 1 0).
Proof.
  intros Hx Hc HD. apply is_derive_unique in HD. rewrite (is_derive_unique _ _ _ (facB_upper_derive x c Hx Hc)) in HD. rewrite <- HD.
  unfold calc_facB_jvp. cbn [snd]. rewrite Rmult_1_r. apply facB_upper_wrong. exact Hx.
Qed.
Lemma profile_same nl p rho w0 u1 z b : 0 < rho -> brightness_profile nl p rho w0 u1 z = Ok b ->
  exists w, lens_eq nl p z = Ok w /\
    (Cmod (w - w0)%C < rho -> Is_limb_1st (Cmod (w - w0)%C / rho) u1 = Some (b / PI)).
Proof.
  intros Hr. unfold brightness_profile. destruct (lens_eq nl p z) as [w|e]; [|discriminate]. cbn [res_map]. intros [= <-].
  exists w. split; [reflexivity|]. intros H. apply brightness_inside. pose proof (Cmod_ge_0 (w - w0)%C). split.
  - apply Rmult_le_pos; [assumption|]. apply Rlt_le, Rinv_0_lt_compat, Hr.
  - apply (Rmult_lt_reg_r rho); [exact Hr|]. unfold Rdiv. rewrite Rmult_assoc, Rinv_l by lra. lra.
Qed.
