(** Units and order of the data in the flux fit and in the marginal likelihood: property C81. *)
From Coq Require Import Reals List Bool Arith Lia Lra Permutation.
From Verif Require Import Base_R Base_List M_Likelihood S_Integral S_Likelihood P_LinFit Thm_Likelihood.
Import ListNotations.
Local Open Scope R_scope.

(** one photometric point: uncertainty, magnification, flux *)
Definition fit_of (l : list (R * R * R)) : res (option linfit) :=
  linear_chi2 (map (fun p => snd (fst p)) l) (map snd l) (ErrArray (map (fun p => fst (fst p)) l)).
(** one point of the likelihood: flux, the two entries of the design matrix, variance *)
Definition nll_of (l : list (R * (R * R) * R)) (sfs sfb : R) : R :=
  nll_ulens (map (fun p => fst (fst p)) l) (map (fun p => snd (fst p)) l) (map snd l) sfs sfb.

Lemma combine_maps {A B D} (f : A -> B) (g : A -> D) l : combine (map f l) (map g l) = map (fun p => (f p, g p)) l.
Proof. induction l as [|a l IH]; [reflexivity|]. cbn. now rewrite IH. Qed.
Lemma sumR_same {A} (f g : A -> R) l : (forall x, In x l -> f x = g x) -> sumR (map f l) = sumR (map g l).
Proof. intros H. f_equal. apply map_ext_in. exact H. Qed.
Definition we (p : R * R * R) : R := fit_weight (fst (fst p)).
Definition xe (p : R * R * R) : R := snd (fst p).
Definition S_ (F : R * R * R -> R) (l : list (R * R * R)) : R := sumR (map F l).
Definition formula (s0 s1 sy s2 sxy : R) (chi : R -> R -> R) : option linfit :=
  let det := s0 * s2 - s1 * s1 in
  if Reqb det 0 then None else
  let a := (s2 * sy - s1 * sxy) / det in let b := (s0 * sxy - s1 * sy) / det in
  Some {| fit_b := b; fit_be := osqrt (s0 / det); fit_a := a; fit_ae := osqrt (s2 / det); fit_chi2 := chi a b |}.
Lemma fit_formula l : fit_of l = Ok (formula (S_ we l) (S_ (fun p => we p * xe p) l) (S_ (fun p => we p * snd p) l) (S_ (fun p => we p * xe p * xe p) l) (S_ (fun p => we p * xe p * snd p) l)
  (fun a b => S_ (fun p => we p * (snd p - a - b * xe p) ^ 2) l)).
Proof.
  unfold fit_of, linear_chi2. rewrite !map_length, !Nat.eqb_refl. cbn [negb]. unfold linear_fit, formula, S_. cbv zeta. rewrite !map_map, !combine_maps, !map_map. cbn [fst snd].
  reflexivity.
Qed.
Lemma fit_perm l l' : Permutation l l' -> fit_of l = fit_of l'.
Proof.
  intros H. rewrite !fit_formula. assert (Q : forall F, S_ F l = S_ F l') by (intros F; unfold S_; apply sumR_perm, Permutation_map, H). rewrite !Q. unfold formula. cbv zeta. destruct (Reqb _ 0); [reflexivity|]. rewrite Q. reflexivity.
Qed.
Lemma osqrt_scale t v : t <> 0 -> osqrt (t ^ 2 * v) = option_map (Rmult (Rabs t)) (osqrt v).
Proof.
  intros Ht. assert (0 < t ^ 2) by nra. unfold osqrt. destruct (Rleb_spec 0 v) as [Hv|Hv]; destruct (Rleb_spec 0 (t ^ 2 * v)) as [Hw|Hw]; cbn [option_map]; [|exfalso; nra|exfalso; nra|reflexivity].
  f_equal. rewrite sqrt_mult by lra. replace (t ^ 2) with (Rsqr t) by (unfold Rsqr; ring). now rewrite sqrt_Rsqr_abs.
Qed.
Lemma S_lin F G H K (a b d e : R) l : (forall p, In p l -> F p = a * G p + b * H p + d * K p) -> S_ F l = a * S_ G l + b * S_ H l + d * S_ K l.
Proof. intros E. unfold S_. rewrite (sumR_same F (fun p => a * G p + b * H p + d * K p)) by exact E. rewrite !sumR_map_plus, !sumR_map_scal. reflexivity. Qed.

(** ** C81 *)
(** fluxes [c y + d] with uncertainties [|c| e] and magnifications [k x + m]: chi-squared is unchanged, the source flux is multiplied by
    [c / k], the blend flux transforms as the line does, and the standard errors are multiplied by their units *)
Theorem C81_fit_units : forall l c d k m, (forall e x y, In (e, x, y) l -> 0 < e) -> c <> 0 -> k <> 0 ->
  let l' := map (fun p => (Rabs c * fst (fst p), k * snd (fst p) + m, c * snd p + d)) l in
  exists r r', fit_of l = Ok r /\ fit_of l' = Ok r' /\
  match r, r' with
  | None, None => True
  | Some f, Some f' => fit_chi2 f' = fit_chi2 f /\ fit_b f' = c / k * fit_b f /\ fit_a f' = c * fit_a f + d - m * (c / k * fit_b f) /\
      fit_be f' = option_map (Rmult (Rabs (c / k))) (fit_be f) /\ (m = 0 -> fit_ae f' = option_map (Rmult (Rabs c)) (fit_ae f))
  | _, _ => False
  end.
Proof.
  intros l c d k m He Hc Hk l'. do 2 eexists. split; [apply fit_formula|]. split; [apply fit_formula|].
  assert (Hw : forall p, In p l -> fit_weight (Rabs c * fst (fst p)) = / c ^ 2 * we p).
  { intros ((e & x) & y) Hp. specialize (He e x y Hp). unfold we. cbn [fst]. pose proof (Rabs_pos_lt c Hc). assert (0 < Rabs c * e) by (apply Rmult_lt_0_compat; auto). unfold fit_weight. destruct (Rltb_spec 0 (Rabs c * e)); [|lra]. destruct (Rltb_spec 0 e); [|lra].
    rewrite Rpow_mult_distr, pow2_abs. field. split; [lra|auto]. }
  assert (Sm : forall F, S_ F l' = S_ (fun p => F (Rabs c * fst (fst p), k * snd (fst p) + m, c * snd p + d)) l) by (intros F; unfold S_, l'; now rewrite map_map).
  set (s0 := S_ we l). set (s1 := S_ (fun p => we p * xe p) l). set (sy := S_ (fun p => we p * snd p) l). set (s2 := S_ (fun p => we p * xe p * xe p) l). set (sxy := S_ (fun p => we p * xe p * snd p) l).
  assert (E0 : S_ we l' = / c ^ 2 * s0 + 0 * s0 + 0 * s0). { rewrite Sm. apply S_lin; [exact 0|]. intros p Hp. unfold we at 1. cbn [fst snd]. rewrite (Hw p Hp). ring. }
  assert (E1 : S_ (fun p => we p * xe p) l' = / c ^ 2 * k * s1 + / c ^ 2 * m * s0 + 0 * s0). { rewrite Sm. apply S_lin; [exact 0|]. intros p Hp. unfold we at 1. unfold xe. cbn [fst snd]. rewrite (Hw p Hp). unfold xe. ring. }
  assert (Ey : S_ (fun p => we p * snd p) l' = / c ^ 2 * c * sy + / c ^ 2 * d * s0 + 0 * s0). { rewrite Sm. apply S_lin; [exact 0|]. intros p Hp. unfold we at 1. cbn [fst snd]. rewrite (Hw p Hp). ring. }
  assert (E2 : S_ (fun p => we p * xe p * xe p) l' = / c ^ 2 * k ^ 2 * s2 + / c ^ 2 * (2 * k * m) * s1 + / c ^ 2 * m ^ 2 * s0). { rewrite Sm. apply S_lin; [exact 0|]. intros p Hp. unfold we at 1. unfold xe. cbn [fst snd]. rewrite (Hw p Hp). unfold xe. ring. }
  assert (Exy : S_ (fun p => we p * xe p * snd p) l' = / c ^ 2 * (k * c) * sxy + / c ^ 2 * (k * d) * s1 + (/ c ^ 2 * (m * c) * sy + / c ^ 2 * (m * d) * s0)).
  { rewrite Sm. unfold S_, s1, s0, sy, sxy, S_. rewrite <- !sumR_map_scal, <- !sumR_map_plus. apply sumR_same. intros p Hp. unfold we at 1. unfold xe. cbn [fst snd]. rewrite (Hw p Hp). unfold xe. ring. }
  rewrite E0, E1, Ey, E2, Exy. unfold formula. cbv zeta.
  set (D := s0 * s2 - s1 * s1). assert (c2 : c ^ 2 <> 0) by (apply pow_nonzero; auto).
  assert (ED : (/ c ^ 2 * s0 + 0 * s0 + 0 * s0) * (/ c ^ 2 * k ^ 2 * s2 + / c ^ 2 * (2 * k * m) * s1 + / c ^ 2 * m ^ 2 * s0) - (/ c ^ 2 * k * s1 + / c ^ 2 * m * s0 + 0 * s0) * (/ c ^ 2 * k * s1 + / c ^ 2 * m * s0 + 0 * s0) = k ^ 2 / c ^ 4 * D) by (unfold D; field; auto).
  rewrite ED.
  fold D. assert (Kp : k ^ 2 / c ^ 4 <> 0). { unfold Rdiv. apply Rmult_integral_contrapositive. split; [apply pow_nonzero; auto|apply Rinv_neq_0_compat, pow_nonzero; auto]. }
  destruct (Reqb_spec D 0) as [HD|HD]; destruct (Reqb_spec (k ^ 2 / c ^ 4 * D) 0) as [HD'|HD']; [exact I|exfalso; apply HD'; rewrite HD; ring|exfalso; apply Rmult_integral in HD'; tauto|].
  cbn [fit_chi2 fit_a fit_b fit_be fit_ae].
  set (a := (s2 * sy - s1 * sxy) / D). set (b := (s0 * sxy - s1 * sy) / D).
  match goal with |- S_ (fun p => we p * (snd p - ?A - ?B * xe p) ^ 2) l' = _ /\ _ => assert (EB : B = c / k * b); [|assert (EA : A = c * a + d - m * (c / k * b))] end.
  { unfold b. field. auto. }
  { unfold a, b. apply (Rmult_eq_reg_r D); auto. replace ((c * ((s2 * sy - s1 * sxy) / D) + d - m * (c / k * ((s0 * sxy - s1 * sy) / D))) * D) with (c * (s2 * sy - s1 * sxy) + d * D - m * (c / k * (s0 * sxy - s1 * sy))) by (field; auto).
    match goal with |- ?n / _ * D = _ => replace (n / (k ^ 2 / c ^ 4 * D) * D) with (n / (k ^ 2 / c ^ 4)) by (field; auto) end. unfold D. field. auto. }
  rewrite EB, EA. split; [|split; [reflexivity|split; [reflexivity|split]]].
  - rewrite Sm. apply sumR_same. intros p Hp. unfold we at 1. unfold xe. cbn [fst snd]. rewrite (Hw p Hp). unfold xe. field. auto.
  - rewrite <- osqrt_scale by (apply Rmult_integral_contrapositive; split; auto; apply Rinv_neq_0_compat; auto). f_equal. field. auto.
  - intros ->. rewrite <- osqrt_scale by auto. f_equal. field. auto.
Qed.
Print Assumptions C81_fit_units.
(** the order of the points does not matter *)
Theorem C81_order : (forall l l', Permutation l l' -> fit_of l = fit_of l') /\ (forall l l' sfs sfb, Permutation l l' -> nll_of l sfs sfb = nll_of l' sfs sfb).
Proof.
  split; [exact fit_perm|]. intros l l' sfs sfb H. unfold nll_of, nll_ulens, dot. cbv zeta. rewrite !map_map, !combine_maps, !map_map. cbn [fst snd]. rewrite !combine_maps, !map_map. cbn [fst snd].
  assert (Q : forall F : R * (R * R) * R -> R, sumR (map F l) = sumR (map F l')) by (intros F; apply sumR_perm, Permutation_map, H). rewrite !Q. reflexivity.
Qed.
Print Assumptions C81_order.
(** one more point, whatever its flux and uncertainty, never lowers chi-squared *)
Lemma points_l l : points (map (fun p => fst (fst p)) l) (map (fun p => snd (fst p)) l) (map snd l) = map (fun p => (doc_weight (fst (fst p)), snd (fst p), snd p)) l.
Proof. induction l as [|a l IH]; [reflexivity|]. cbn. now rewrite IH. Qed.
Theorem C81_more_data : forall l p e1 x1 y1 e2 x2 y2, In (e1, x1, y1) l -> In (e2, x2, y2) l -> x1 <> x2 ->
  exists f f', fit_of l = Ok (Some f) /\ fit_of (p :: l) = Ok (Some f') /\ fit_chi2 f <= fit_chi2 f' /\
  (fit_chi2 f' = fit_chi2 f -> snd p = fit_a f' + fit_b f' * snd (fst p)).
Proof.
  intros l p e1 x1 y1 e2 x2 y2 H1 H2 Hx.
  assert (W : forall l, In (e1, x1, y1) l -> In (e2, x2, y2) l -> exists f, fit_of l = Ok (Some f) /\ fit_chi2 f = chi2_of (map (fun p => (doc_weight (fst (fst p)), snd (fst p), snd p)) l) (fit_a f) (fit_b f) /\
     forall a b, fit_chi2 f <= chi2_of (map (fun p => (doc_weight (fst (fst p)), snd (fst p), snd p)) l) a b).
  { clear - Hx. intros l H1 H2. destruct (In_nth _ _ (0, 0, 0) H1) as (i & Hi & Ei). destruct (In_nth _ _ (0, 0, 0) H2) as (j & Hj & Ej).
    destruct (C22_unique_optimum_partial (map (fun p => snd (fst p)) l) (map snd l) (map (fun p => fst (fst p)) l) i j) as (f & be & ae & E & _ & _ & _ & _ & V & U & _); rewrite ?map_length; auto.
    - rewrite !(nth_map_lt _ _ _ (0, 0, 0)) by auto. rewrite Ei, Ej. exact Hx.
    - exists f. split; [exact E|]. rewrite points_l in *. split; [exact V|]. intros a b. destruct (Req_dec a (fit_a f)) as [->|Na]; [destruct (Req_dec b (fit_b f)) as [->|Nb]; [lra|]|]; apply Rlt_le, U; congruence. }
  destruct (W l H1 H2) as (f & E & V & U). destruct (W (p :: l) (or_intror H1) (or_intror H2)) as (f' & E' & V' & _). exists f, f'. split; auto. split; auto. cbn [map chi2_of] in V'. specialize (U (fit_a f') (fit_b f')).
  assert (Wp : 0 < doc_weight (fst (fst p))) by (unfold doc_weight; destruct (Rlt_dec 0 (fst (fst p))); [apply Rinv_0_lt_compat; nra|lra]).
  pose proof (pow2_ge_0 (snd p - (fit_a f' + fit_b f' * snd (fst p)))) as Sq. split; [nra|]. intros Eq.
  assert (Z : doc_weight (fst (fst p)) * (snd p - (fit_a f' + fit_b f' * snd (fst p))) ^ 2 = 0) by nra. apply Rmult_integral in Z. destruct Z as [Z|Z]; [lra|]. apply Rsqr_0_uniq in Z || (assert (Z' : Rsqr (snd p - (fit_a f' + fit_b f' * snd (fst p))) = 0) by (unfold Rsqr; lra); apply Rsqr_0_uniq in Z'; lra).
Qed.
Print Assumptions C81_more_data.
Lemma wdot_maps {A} (f g h : A -> R) l : wdot (map f l) (map g l) (map h l) = sumR (map (fun p => f p * g p / h p) l).
Proof. induction l as [|a l IH]; [reflexivity|]. cbn. now rewrite IH. Qed.
(** the likelihood: fluxes times [c], variances and prior variances times [c^2], magnifications times [k] with the prior of the source
    flux divided by [k^2]: the value changes by the constant [n ln |c|] only *)
Theorem C81_likelihood_units : forall l sfs sfb c k, (forall f M v, In (f, M, v) l -> 0 < v) -> 0 < sfs -> 0 < sfb -> c <> 0 -> k <> 0 ->
  nll_of (map (fun p => (c * fst (fst p), (k * fst (snd (fst p)), snd (snd (fst p))), c ^ 2 * snd p)) l) (c ^ 2 / k ^ 2 * sfs) (c ^ 2 * sfb) = nll_of l sfs sfb + INR (length l) * ln (Rabs c).
Proof.
  intros l sfs sfb c k Hv Hs Hb Hc Hk. set (l' := map _ l). assert (c2 : 0 < c ^ 2) by nra. assert (k2 : 0 < k ^ 2) by nra.
  assert (V : forall v, In v (map snd l) -> 0 < v) by (intros v H; apply in_map_iff in H; destruct H as (((f & M) & v') & <- & H); cbn; eapply Hv, H).
  assert (V' : forall v, In v (map snd l') -> 0 < v). { intros v H. apply in_map_iff in H. destruct H as (q & <- & H). unfold l' in H. apply in_map_iff in H. destruct H as (p & <- & H). cbn. apply Rmult_lt_0_compat; [cbn in c2; lra|]. apply V, in_map, H. }
  assert (Ps : 0 < c ^ 2 / k ^ 2 * sfs) by (apply Rmult_lt_0_compat; auto; apply Rdiv_lt_0_compat; auto). assert (Pb : 0 < c ^ 2 * sfb) by (apply Rmult_lt_0_compat; auto).
  pose proof (C25_well_defined (map (fun p => fst (fst p)) l) (map (fun p => snd (fst p)) l) (map snd l) sfs sfb ltac:(rewrite !map_length; auto) ltac:(rewrite !map_length; auto) V Hs Hb) as X.
  pose proof (C25_well_defined (map (fun p => fst (fst p)) l') (map (fun p => snd (fst p)) l') (map snd l') _ _ ltac:(rewrite !map_length; auto) ltac:(rewrite !map_length; auto) V' Ps Pb) as X'.
  cbv zeta in X, X'. destruct X as (_ & _ & HD & _ & E & _). destruct X' as (_ & _ & _ & _ & E' & _). unfold nll_of. rewrite E, E'. clear E E'.
  rewrite !map_map, !wdot_maps in *. set (T := fun F : R * (R * R) * R -> R => sumR (map F l)) in *.
  assert (Tm : forall F, sumR (map F l') = T (fun p => F (c * fst (fst p), (k * fst (snd (fst p)), snd (snd (fst p))), c ^ 2 * snd p))) by (intros F; unfold T, l'; now rewrite map_map).
  rewrite !Tm. cbn [fst snd].
  assert (Ts : forall F G a, (forall p, In p l -> F p = a * G p) -> T F = a * T G) by (intros F G a HF; unfold T; rewrite <- sumR_map_scal; apply sumR_same; auto).
  assert (Nz : forall p, In p l -> snd p <> 0) by (intros p Hp; pose proof (V _ (in_map snd _ _ Hp)); lra).
  pose (yy := T (fun p => fst (fst p) * fst (fst p) / snd p)). pose (u2 := T (fun p => fst (snd (fst p)) * fst (snd (fst p)) / snd p)).
  pose (w2 := T (fun p => snd (snd (fst p)) * snd (snd (fst p)) / snd p)). pose (uw := T (fun p => fst (snd (fst p)) * snd (snd (fst p)) / snd p)).
  pose (uy := T (fun p => fst (snd (fst p)) * fst (fst p) / snd p)). pose (wy := T (fun p => snd (snd (fst p)) * fst (fst p) / snd p)). pose (lv := T (fun p => ln (snd p))).
  rewrite (Ts (fun p => c * fst (fst p) * (c * fst (fst p)) / (c ^ 2 * snd p)) (fun p => fst (fst p) * fst (fst p) / snd p) 1) by (intros p Hp; specialize (Nz p Hp); field; auto).
  rewrite (Ts (fun p => snd (snd (fst p)) * snd (snd (fst p)) / (c ^ 2 * snd p)) (fun p => snd (snd (fst p)) * snd (snd (fst p)) / snd p) (/ c ^ 2)) by (intros p Hp; specialize (Nz p Hp); field; auto).
  rewrite (Ts (fun p => k * fst (snd (fst p)) * (c * fst (fst p)) / (c ^ 2 * snd p)) (fun p => fst (snd (fst p)) * fst (fst p) / snd p) (k / c)) by (intros p Hp; specialize (Nz p Hp); field; auto).
  rewrite (Ts (fun p => k * fst (snd (fst p)) * snd (snd (fst p)) / (c ^ 2 * snd p)) (fun p => fst (snd (fst p)) * snd (snd (fst p)) / snd p) (k / c ^ 2)) by (intros p Hp; specialize (Nz p Hp); field; auto).
  rewrite (Ts (fun p => snd (snd (fst p)) * (c * fst (fst p)) / (c ^ 2 * snd p)) (fun p => snd (snd (fst p)) * fst (fst p) / snd p) (/ c)) by (intros p Hp; specialize (Nz p Hp); field; auto).
  rewrite (Ts (fun p => k * fst (snd (fst p)) * (k * fst (snd (fst p))) / (c ^ 2 * snd p)) (fun p => fst (snd (fst p)) * fst (snd (fst p)) / snd p) (k ^ 2 / c ^ 2)) by (intros p Hp; specialize (Nz p Hp); field; auto).
  assert (L2 : ln (c ^ 2) = 2 * ln (Rabs c)). { rewrite <- pow2_abs. pose proof (Rabs_pos_lt c Hc). replace (Rabs c ^ 2) with (Rabs c * Rabs c) by ring. rewrite ln_mult by auto. ring. }
  assert (Tl : T (fun p => ln (c ^ 2 * snd p)) = INR (length l) * (2 * ln (Rabs c)) + lv).
  { rewrite <- L2. unfold T, lv, T. rewrite (sumR_same _ (fun p => ln (c ^ 2) + ln (snd p))) by (intros p Hp; apply ln_mult; auto; apply V, in_map, Hp). rewrite sumR_map_plus. f_equal. clear. induction l as [|a l IH]; [cbn; ring|]. cbn [map length]. rewrite S_INR. cbn [sumR fold_right] in *. rewrite IH. ring. }
  rewrite Tl. change (sumR (map (fun p => fst (fst p) * fst (fst p) / snd p) l)) with yy in *. change (sumR (map (fun p => fst (snd (fst p)) * fst (snd (fst p)) / snd p) l)) with u2 in *.
  change (sumR (map (fun p => snd (snd (fst p)) * snd (snd (fst p)) / snd p) l)) with w2 in *. change (sumR (map (fun p => fst (snd (fst p)) * snd (snd (fst p)) / snd p) l)) with uw in *.
  change (sumR (map (fun p => fst (snd (fst p)) * fst (fst p) / snd p) l)) with uy in *. change (sumR (map (fun p => snd (snd (fst p)) * fst (fst p) / snd p) l)) with wy in *.
  change (sumR (map (fun p => ln (snd p)) l)) with lv in *.
  fold yy u2 w2 uw uy wy. clearbody yy u2 w2 uw uy wy lv. clear Ts Tm Tl.
  set (D := (/ sfs + u2) * (/ sfb + w2) - uw * uw) in *. assert (Dp : 0 < D) by (eapply Rlt_le_trans; [|exact HD]; apply Rinv_0_lt_compat, Rmult_lt_0_compat; auto).
  match goal with |- (_ + ln ?D') / 2 = _ => assert (ED : D' = k ^ 2 / c ^ 2 * / c ^ 2 * D) by (unfold D; field; repeat split; auto; lra) end.
  rewrite ED. assert (Pk : 0 < k ^ 2 / c ^ 2) by (apply Rdiv_lt_0_compat; auto). assert (Ic : 0 < / c ^ 2) by (apply Rinv_0_lt_compat; auto).
  rewrite (ln_mult (k ^ 2 / c ^ 2 * / c ^ 2) D), (ln_mult (k ^ 2 / c ^ 2)), (ln_mult (c ^ 2) sfb), (ln_mult (c ^ 2 / k ^ 2) sfs), (ln_Rinv (c ^ 2)) by (auto; first [apply Rdiv_lt_0_compat; solve [auto] | apply Rmult_lt_0_compat; solve [auto]]).
  replace (ln (k ^ 2 / c ^ 2)) with (- ln (c ^ 2 / k ^ 2)) by (rewrite <- ln_Rinv by (apply Rdiv_lt_0_compat; auto); f_equal; field; auto).
  match goal with |- (1 * yy - ?n / _ + _ + _ + _ + _) / 2 = (yy - ?n0 / D + _ + _ + _ + _) / 2 + _ => assert (EN : n = k ^ 2 / c ^ 4 * n0) by (field; repeat split; auto; lra); rewrite EN; replace (k ^ 2 / c ^ 4 * n0 / (k ^ 2 / c ^ 2 * / c ^ 2 * D)) with (n0 / D) by (field; repeat split; auto; lra) end.
  field. lra.
Qed.
Print Assumptions C81_likelihood_units.
(** with one uncertainty for all points ([err] a number) the claim is false: fluxes 0, 0, 0 have chi-squared 0 and the same fluxes with 1 added have
    chi-squared 15/2, because the weights are summed once and not once per point *)
Theorem C81_scalar_shift_refuted : exists f f', linear_chi2 [0; 1; 2] [0; 0; 0] (ErrScalar 1) = Ok (Some f) /\ linear_chi2 [0; 1; 2] [0 + 1; 0 + 1; 0 + 1] (ErrScalar 1) = Ok (Some f') /\
  fit_chi2 f = 0 /\ fit_chi2 f' = 15 / 2.
Proof.
  destruct C22_scalar_err_refuted as (f' & E' & _ & _ & X & _). eexists. exists f'. replace (0 + 1) with 1 by ring. split; [|split; [exact E'|split; [|exact X]]].
  - unfold linear_chi2. cbn [length Nat.eqb negb map]. destruct (Reqb_spec 1 0); [lra|]. unfold linear_fit. cbv zeta. match goal with |- context [Reqb ?D 0] => destruct (Reqb_spec D 0) as [Q|Q] end; [|reflexivity]. exfalso. revert Q. unfold fit_weight. destruct (Rltb_spec 0 1); [|lra]. cbn. lra.
  - cbn [fit_chi2]. unfold fit_weight. destruct (Rltb_spec 0 1); [|lra]. cbn. field.
Qed.
Print Assumptions C81_scalar_shift_refuted.
(** fluxes 1, 3, 4 and the same data with fluxes [5 - 2 y], uncertainties doubled and magnifications times ten *)
Example C81_example : exists f f', fit_of [(1, 1, 1); (1, 2, 3); (1, 3, 4)] = Ok (Some f) /\ fit_of [(2, 10, 3); (2, 20, -1); (2, 30, -3)] = Ok (Some f') /\
  fit_b f = 3 / 2 /\ fit_a f = - (1 / 3) /\ fit_chi2 f = 1 / 6 /\ fit_b f' = - (3 / 10) /\ fit_a f' = 17 / 3 /\ fit_chi2 f' = 1 / 6.
Proof.
  do 2 eexists. rewrite !fit_formula. unfold formula, S_, we, xe, fit_weight. cbn [map fst snd]. cbv zeta. destruct (Rltb_spec 0 1); [|lra]. destruct (Rltb_spec 0 2); [|lra].
  split; [match goal with |- context [Reqb ?D 0] => destruct (Reqb_spec D 0) as [Q|Q] end; [exfalso; cbn in Q; lra|reflexivity]|].
  split; [match goal with |- context [Reqb ?D 0] => destruct (Reqb_spec D 0) as [Q|Q] end; [exfalso; cbn in Q; lra|reflexivity]|].
  cbn [fit_b fit_a fit_chi2]. unfold sumR. cbn [fold_right]. repeat split; field; lra.
Qed.
