(** The jax classes that transform a linear limb-darkening law numerically, [mag_limb] and [mag_limb1]: property C80, continued. *)
From Coq Require Import Reals List Bool Arith ZArith Lia Lra.
From Coquelicot Require Import Coquelicot.
From Verif Require Import Base_R Base_C Base_List M_Fftlog M_Special M_MagFft M_MagCurve M_LimbNumeric S_Fftlog S_MagCurve P_Fftlog P_FftConv P_HankelConv P_MagCurve P_MagSamples P_SmallGrid P_Profile2 Thm_MagCurve Thm_LimbCurve.
Import ListNotations.
Local Open Scope R_scope.

Lemma hankel_nan_first g nu w n x fx fx' npad y F : length fx = length x -> length fx' = length x -> hankel g nu w n x fx 0 0 npad = Ok (y, F) ->
  (2 <= length x)%nat -> nth 0 fx' (Some 0) = None -> hankel g nu w n x fx' 0 0 npad = Ok (y, repeat None (length F)).
Proof.
  intros L L' H Hx Hn. unfold hankel in *. set (q := map _ (combine x fx)) in H. set (q' := map _ (combine x fx')).
  assert (Lq : length q = length x) by (unfold q; rewrite map_length, combine_length; lia). assert (Lq' : length q' = length x) by (unfold q'; rewrite map_length, combine_length; lia).
  destruct (fftlog_init x q 0 0 npad) as [s|] eqn:Es; [|discriminate]. cbn [bind] in H. destruct (init_same x q q' npad s Lq Lq' Es) as (s' & -> & Ex & EN & Eh & El & Ef & Lf & _). cbn [bind].
  unfold fftlog in *. injection H as Hy HF.
  assert (Ey : slice s' (y_array (n - 0.5) s') = y) by (rewrite <- Hy; unfold slice, y_array; rewrite Ex, EN, Eh, El; reflexivity).
  assert (EF : Fy_array g nu w (n - 0.5) s' = repeat None (f_N s')).
  { unfold Fy_array. cbv zeta. rewrite all_num_none; [reflexivity|].
    assert (Q : In None (f_fx s')).
    { clear - Hx Hn Ef L' Lq'. destruct x as [|x0 [|x1 x]]; [cbn in Hx; lia|cbn in Hx; lia|]. destruct fx' as [|f0 fx']; [discriminate|]. cbn in Hn. subst f0.
      assert (Eq : exists a q2, q' = None :: a :: q2). { destruct fx' as [|f1 fx']; [discriminate|]. unfold q'. cbn [combine map]. do 2 eexists. f_equal. destruct (nsqrt x0); reflexivity. }
      destruct Eq as (a & q2 & Eq). rewrite Eq in Ef. destruct (npad =? 0)%nat; destruct Ef as [-> | ->].
      - left. reflexivity.
      - left. reflexivity.
      - apply in_or_app. right. left. reflexivity.
      - rewrite removelast_app by discriminate. apply in_or_app. right. left. reflexivity. }
    destruct (In_nth _ _ (Some 0) Q) as (i & Hi & Ei). unfold fb_array. apply in_map_iff. exists (nth i (combine (f_fx s') (f_x s')) (Some 0, Some 0)). split; [|apply nth_In; rewrite combine_length; lia].
    rewrite combine_nth by auto. rewrite Ei. reflexivity. }
  rewrite Ey. do 2 f_equal. rewrite EF. unfold slice. rewrite skipn_repeat, firstn_repeat, combine_none. f_equal. rewrite <- HF, map_length, combine_length, Hy. f_equal. unfold slice. rewrite firstn_length, skipn_length, Fy_length, EN, El, Eh. reflexivity.
Qed.
(** a profile whose first value is NaN *)
Lemma samples_nan g lo hi N sk (P : list R) rho : lo < hi -> (2 <= N)%nat -> length P = N -> let k := rgeom (0.5 / Rpower 10 hi) (Rpower 10 ((hi - lo) / INR (N - 1))) N in
  length (sk (map Some k) rho) = N -> nth 0 (sk (map Some k) rho) None = None -> fft_samples g sk (map Some k) (map Some P) rho = Ok (map Some (logspace lo hi N), repeat None N).
Proof.
  intros H HN LP k Ls Hs. unfold fft_samples. cbv zeta. set (r := Rpower 10 ((hi - lo) / INR (N - 1))) in *. assert (Hr : 0 < r) by apply Rpower_pos. assert (Hr1 : r <> 1) by (apply ratio_neq1; auto).
  assert (Lk : length k = N) by apply rgeom_len. assert (Hk : 0 < 0.5 / Rpower 10 hi) by (apply Rdiv_lt_0_compat; [lra|apply Rpower_pos]).
  destruct (kernel_exists g r N 512 Hr Hr1 HN ltac:(right; lia) ltac:(lia)) as [kappa HK]. pose proof (HK (0.5 / Rpower 10 hi) (repeat 0 N) Hk (repeat_length _ _)) as E. cbv zeta in E. fold k in E.
  match goal with |- context [hankel _ _ _ _ _ ?l _ _ _] => set (cj := l) end.
  assert (Lc : length cj = N) by (unfold cj; rewrite map_length, !combine_length, !map_length, LP, Lk, Ls; lia).
  match type of E with _ = Ok (?y, ?F) => assert (T : hankel g 1.5 0.25 0 (map Some k) cj 0 0 512 = Ok (y, repeat None (length F))) end.
  { apply (hankel_nan_first g 1.5 0.25 0 (map Some k) (map Some (repeat 0 N)) cj 512 _ _); [rewrite !map_length, repeat_length, Lk; reflexivity|rewrite map_length, Lk; exact Lc|exact E|rewrite map_length, Lk; lia|].
    clear - Lk HN Ls LP Hs. unfold cj. clear cj. destruct k as [|k0 k']; [cbn in Lk; lia|]. destruct P as [|P0 P']; [cbn in LP; lia|]. cbn [map] in *. destruct (sk _ rho) as [|s0 ss]; [cbn in Ls; lia|]. cbn in Hs. subst s0. reflexivity. }
  rewrite T. cbn [bind]. rewrite !map_length, rgeom_len. do 2 f_equal.
  - f_equal. apply (grid_back lo hi N HN).
  - clear. induction N as [|N IH]; [reflexivity|]. cbn [repeat map nmap option_map]. f_equal. exact IH.
Qed.
Lemma list_split (l : list num) : ~ In None l -> exists s, l = map Some s.
Proof. induction l as [|[x|] l IH]; intros H; [exists []; reflexivity| |exfalso; apply H; left; reflexivity]. destruct IH as (s & ->); [intros Q; apply H; right; exact Q|]. exists (x :: s). reflexivity. Qed.
Lemma sk_nan g su lo hi N k rho : lo < hi -> Nat.even N = true -> (16 <= N)%nat -> length (su rho (logspace lo hi N)) = N -> nth 0 (su rho (logspace lo hi N)) None = None ->
  sk_numeric g su lo hi N k rho = repeat None N.
Proof.
  intros H Ev HN Ls Es.
  unfold sk_numeric. cbv zeta. set (r := Rpower 10 ((hi - lo) / INR (N - 1))). assert (Hr : 0 < r) by apply Rpower_pos. assert (Hr1 : r <> 1) by (apply ratio_neq1; auto; lia).
  destruct (kernel_exists g r N 0 Hr Hr1 ltac:(lia) ltac:(auto) ltac:(lia)) as [kappa HK]. pose proof (HK (Rpower 10 lo) (repeat 0 N) (Rpower_pos _ _) (repeat_length _ _)) as E. cbv zeta in E.
  assert (Eu : logspace lo hi N = rgeom (Rpower 10 lo) r N) by apply logspace_geom. rewrite <- Eu in E. set (u := logspace lo hi N) in *. assert (Lu : length u = N) by apply logspace_len.
  match goal with |- context [hankel _ _ _ _ _ ?l _ _ _] => set (f := l) end. assert (Lf : length f = N) by (unfold f; rewrite map_length, combine_length; lia).
  match type of E with _ = Ok (?y, ?F) => assert (T : hankel g 1.5 0.25 0 (map Some u) f 0 0 0 = Ok (y, repeat None (length F))) end.
  { apply (hankel_nan_first g 1.5 0.25 0 (map Some u) (map Some (repeat 0 N)) f 0 _ _); [rewrite !map_length, repeat_length; auto|rewrite map_length, Lu; exact Lf|exact E|rewrite map_length, Lu; lia|].
    clear - Ls Es Lu HN. unfold f. clear f. destruct (su rho u) as [|s0 ss]; [cbn in Ls; lia|]. cbn in Es. subst s0. destruct u as [|u0 u']; [cbn in Lu; lia|]. reflexivity. }
  rewrite T. rewrite !map_length, rgeom_len. clear. assert (Q : forall m v, map (fun w => ndiv w v) (repeat (@None R) m) = repeat None m) by (intros m v; induction m as [|m IH]; [reflexivity|cbn [repeat map]; rewrite IH; reflexivity]). apply Q.
Qed.
(** the profile is either all numbers or all NaN *)
Lemma sk_cases g su lo hi N k rho : lo < hi -> Nat.even N = true -> (16 <= N)%nat ->
  (exists s, length s = N /\ su rho (logspace lo hi N) = map Some s) \/ (length (su rho (logspace lo hi N)) = N /\ nth 0 (su rho (logspace lo hi N)) None = None) ->
  sk_numeric g su lo hi N k rho = repeat None N \/ exists S, length S = N /\ nth 0 S 0 = 1 /\ sk_numeric g su lo hi N k rho = map Some S.
Proof.
  intros H Ev HN [(s & Ls & Es)|(Ls & Es)].
  - destruct (numeric_val g lo hi N H Ev HN) as (kappa & V). rewrite (V su s k rho Ls Es). match goal with |- context [ndiv _ (Some ?h)] => set (h0 := h) end.
    destruct (Req_dec h0 0) as [Z|Z].
    + left. rewrite <- (seq_length N 0) at 2. generalize (seq 0 N). intros l. induction l as [|a l IH]; [reflexivity|]. cbn [map length repeat]. rewrite IH. f_equal. cbn. destruct (Reqb_spec h0 0); [reflexivity|contradiction].
    + right. exists (map (fun i => numeric_sum kappa (logspace lo hi N) s (0.5 / nth (N - 1 - i) (logspace lo hi N) 0) / h0) (seq 0 N)). rewrite map_length, seq_length. split; auto. split.
      * rewrite (nth_map_lt _ _ _ 0%nat) by (rewrite seq_length; lia). rewrite seq_nth by lia. cbn [Nat.add]. rewrite Nat.sub_0_r. fold h0. field. exact Z.
      * rewrite map_map. apply map_ext. intros i. cbn. destruct (Reqb_spec h0 0); [contradiction|reflexivity].
  - left. apply sk_nan; auto.
Qed.
Lemma su_limb_num a1 rho u : su_limb a1 rho u = map Some (map (su_linear a1 rho) u).
Proof. unfold su_limb. now rewrite map_map. Qed.
Lemma su_cases a1 rho lo hi N : (16 <= N)%nat ->
  (exists s, length s = N /\ su_limb1 a1 rho (logspace lo hi N) = map Some s) \/ (length (su_limb1 a1 rho (logspace lo hi N)) = N /\ nth 0 (su_limb1 a1 rho (logspace lo hi N)) None = None).
Proof.
  intros HN. pose proof (logspace_len lo hi N) as L. unfold su_limb1. set (c := nth 0 (map (su_linear a1 rho) (logspace lo hi N)) 0). destruct (Req_dec c 0) as [Z|Z].
  - right. rewrite !map_length. split; auto. rewrite (nth_map_lt _ _ _ 0) by (rewrite map_length; lia). cbn. destruct (Reqb_spec c 0); [reflexivity|contradiction].
  - left. exists (map (fun v => v / c) (map (su_linear a1 rho) (logspace lo hi N))). rewrite !map_length. split; auto. rewrite (map_map _ Some). apply map_ext. intros v. cbn. destruct (Reqb_spec c 0); [contradiction|reflexivity].
Qed.
(** the value of either class off the centre, for sources that are not small *)
Lemma numeric_large g su lo hi N (P : list R) A0 u rho : lo < hi -> Nat.even N = true -> (16 <= N)%nat -> length P = N -> 0 < rho ->
  (exists s, length s = N /\ su rho (logspace lo hi N) = map Some s) \/ (length (su rho (logspace lo hi N)) = N /\ nth 0 (su rho (logspace lo hi N)) None = None) ->
  let k := rgeom (0.5 / Rpower 10 hi) (Rpower 10 ((hi - lo) / INR (N - 1))) N in
  let v := A_large interp_jax trunc_jax g (sk_numeric g su lo hi N) A0 (map Some k) (map Some P) (Rabs u) rho in
  (u = 0 -> v = Ok (A0 rho)) /\
  (u <> 0 -> nth 0 (sk_numeric g su lo hi N (map Some k) rho) None <> None -> exists w, v = Ok (Some w)) /\
  (u <> 0 -> nth 0 (sk_numeric g su lo hi N (map Some k) rho) None = None -> lo < 2 -> Rabs u < 100 -> Rabs u <= Rpower 10 hi -> v = Ok None).
Proof.
  intros H Ev HN LP Hrho Hsu k v. assert (HN2 : (2 <= N)%nat) by lia.
  assert (F : forall S, length S = N -> sk_numeric g su lo hi N (map Some k) rho = map Some S -> exists af, length af = N /\ fft_samples g (sk_numeric g su lo hi N) (map Some k) (map Some P) rho = Ok (map Some (logspace lo hi N), map Some af)).
  { intros S LS ES. destruct (kernel_exists g _ N 512 (Hr lo hi N) (Hr1 lo hi N H HN2) HN2 ltac:(right; lia) ltac:(lia)) as [kappa HK].
    pose proof (samples g lo hi N kappa H HN2 HK (sk_numeric g su lo hi N) P rho S ltac:(lra) LP LS) as E. cbv zeta in E. fold k in E. specialize (E ES). eexists. split; [|exact E]. rewrite map_length. apply logspace_len. }
  pose proof (sk_cases g su lo hi N (map Some k) rho H Ev HN Hsu) as SC.
  assert (Nn : sk_numeric g su lo hi N (map Some k) rho = repeat None N -> fft_samples g (sk_numeric g su lo hi N) (map Some k) (map Some P) rho = Ok (map Some (logspace lo hi N), repeat None N)).
  { intros E. apply (samples_nan g lo hi N (sk_numeric g su lo hi N) P rho H HN2 LP); fold k; rewrite E; [apply repeat_length|]. destruct N; [lia|reflexivity]. }
  unfold v, A_large. clear v. split; [|split].
  - intros ->. rewrite Rabs_R0. destruct (Rltb_spec 0 0); [lra|]. destruct SC as [E|(S & LS & _ & ES)]; [rewrite (Nn E); reflexivity|]. destruct (F S LS ES) as (af & _ & ->). reflexivity.
  - intros Hu Hn. pose proof (Rabs_pos_lt u Hu) as Pu. destruct (Rltb_spec 0 (Rabs u)); [|lra]. destruct SC as [E|(S & LS & _ & ES)]; [exfalso; apply Hn; rewrite E; destruct N; reflexivity|].
    destruct (F S LS ES) as (af & La & ->). cbn [bind]. destruct (trunc_number (logspace lo hi N) af) as (K & -> & LK). rewrite logspace_len, La, Nat.min_id in LK.
    destruct (interp_jax_number K (lg (Rabs u)) 1) as (w & ->); [intros ->; cbn in LK; lia|]. exists w. reflexivity.
  - intros Hu Hn H2 Hu1 Hu2. pose proof (Rabs_pos_lt u Hu) as Pu. destruct (Rltb_spec 0 (Rabs u)); [|lra]. destruct SC as [E|(S & LS & _ & ES)].
    + rewrite (Nn E). cbn [bind]. f_equal. apply (large_nan lo hi N); auto.
    + exfalso. rewrite ES in Hn. destruct S as [|x S]; [cbn in LS; lia|]. discriminate.
Qed.

(** ** C80, combined classes *)
(** [mag_limb]: on every grid of at least 16 points the object is built; the centre is a number unless the coefficient is 1; off the centre there is a number
    at every impact parameter when the first value of the transformed profile, by which the rest is divided, is not 0, and NaN at every impact parameter on the
    grid below 100 otherwise *)
Theorem C80_combined_partial : forall g ellipk ellipe lo hi N, lo < hi -> Nat.even N = true -> (16 <= N)%nat ->
  exists k apk, construct_mag g lo hi N = Ok (k, apk) /\ forall a1 u rho, 0 < rho ->
  let s0 := nth 0 (sk_numeric g (su_limb a1) lo hi N k rho) None in let v := eval_mag_limb g ellipk ellipe lo hi N (k, apk) u rho a1 in
  (u = 0 -> a1 <> 1 -> v = Ok (Some (mag_limb_A0 ellipk ellipe rho a1))) /\ (u = 0 -> a1 = 1 -> v = Ok None) /\
  (u <> 0 -> s0 <> None -> exists w, v = Ok (Some w)) /\ (u <> 0 -> s0 = None -> lo < 2 -> Rabs u < 100 -> Rabs u <= Rpower 10 hi -> v = Ok None).
Proof.
  intros g ek ee lo hi N H Ev HN. destruct (init_Apk_val g lo hi N 0 H Ev ltac:(lia) ltac:(lia)) as (P & LP & E). do 2 eexists. split; [exact E|]. intros a1 u rho Hrho s0 v.
  destruct (numeric_large g (su_limb a1) lo hi N P (fun rho => mag_limb_centre ek ee rho a1) u rho H Ev HN LP Hrho) as (V0 & V1 & V2).
  { left. exists (map (su_linear a1 rho) (logspace lo hi N)). split; [rewrite map_length; apply logspace_len|apply su_limb_num]. }
  cbv zeta in *. split; [|split; [|split]].
  - intros Hu Ha. unfold v, eval_mag_limb, A_jax_plain. cbn [c_k c_apk fst snd]. rewrite (V0 Hu). f_equal. unfold mag_limb_centre. destruct (Reqb_spec (1 - a1) 0); [lra|reflexivity].
  - intros Hu ->. unfold v, eval_mag_limb, A_jax_plain. cbn [c_k c_apk fst snd]. rewrite (V0 Hu). f_equal. unfold mag_limb_centre. destruct (Reqb_spec (1 - 1) 0); [reflexivity|lra].
  - exact V1.
  - exact V2.
Qed.
Print Assumptions C80_combined_partial.
(** a source no larger than the first point of the grid (with the defaults: a radius of 1e-6 or less) is NaN off the centre in both classes; [mag_limb1] is
    spared when its switch to the small-source table is above that radius *)
Theorem C80_combined_tiny_refuted : forall g ellipk ellipe lo hi N, lo < hi -> lo < 2 -> Nat.even N = true -> (16 <= N)%nat ->
  exists k apk, construct_mag g lo hi N = Ok (k, apk) /\ forall a1 u rho, 0 < rho -> rho <= Rpower 10 lo -> 0 < Rabs u < 100 -> Rabs u <= Rpower 10 hi ->
  eval_mag_limb g ellipk ellipe lo hi N (k, apk) u rho a1 = Ok None /\
  forall ext rs us, rs <= rho -> eval_mag_limb1 g ellipk ellipe lo hi N a1 rs us (mkcurve k apk ext) u rho = Ok None.
Proof.
  intros g ek ee lo hi N H H2 Ev HN. destruct (init_Apk_val g lo hi N 0 H Ev ltac:(lia) ltac:(lia)) as (P & LP & E). do 2 eexists. split; [exact E|]. intros a1 u rho Hrho Hlo Hu Hu2.
  assert (Nu : u <> 0) by (intros ->; rewrite Rabs_R0 in Hu; lra).
  assert (Z : forall x, In x (logspace lo hi N) -> su_linear a1 rho x = 0).
  { intros x Hx. unfold su_linear. destruct (Rltb_spec x rho) as [L|]; [exfalso|reflexivity]. assert (Rpower 10 lo <= x); [|lra]. unfold logspace in Hx. apply in_map_iff in Hx. destruct Hx as (i & <- & _). apply Rle_Rpower; [lra|].
    assert (0 <= INR i * ((hi - lo) / INR (N - 1))); [|lra]. apply Rmult_le_pos; [apply pos_INR|]. apply Rlt_le, Rdiv_lt_0_compat; [lra|]. apply lt_0_INR. lia. }
  assert (Ez : map (su_linear a1 rho) (logspace lo hi N) = repeat 0 N). { rewrite <- (logspace_len lo hi N) at 2. revert Z. generalize (logspace lo hi N). intros l Z. induction l as [|x l IH]; [reflexivity|]. cbn [map length repeat]. rewrite Z by (left; reflexivity). f_equal. apply IH. intros y Hy. apply Z. right. exact Hy. }
  split.
  - destruct (numeric_large g (su_limb a1) lo hi N P (fun rho => mag_limb_centre ek ee rho a1) u rho H Ev HN LP Hrho) as (_ & _ & V2).
    { left. exists (map (su_linear a1 rho) (logspace lo hi N)). split; [rewrite map_length; apply logspace_len|apply su_limb_num]. }
    cbv zeta in V2. unfold eval_mag_limb, A_jax_plain. cbn [c_k c_apk fst snd]. apply V2; auto; [|lra].
    destruct (numeric_val g lo hi N H Ev HN) as (kappa & V). rewrite (V (su_limb a1) (repeat 0 N) _ rho (repeat_length _ _)) by (rewrite su_limb_num, Ez; reflexivity).
    assert (S0 : forall q, numeric_sum kappa (logspace lo hi N) (repeat 0 N) q = 0). { intros q. unfold numeric_sum. rewrite (sumR_ext _ (fun _ => 0 * 0)); [rewrite sumR_map_scal; ring|]. intros i Hi. rewrite nth_repeat. ring. }
    rewrite (nth_map_lt _ _ _ 0%nat) by (rewrite seq_length; lia). rewrite !S0. cbn. destruct (Reqb_spec 0 0); [reflexivity|lra].
  - intros ext rs us Hrs. destruct (numeric_large g (su_limb1 a1) lo hi N P (fun rho => mag_limb_centre ek ee rho a1) u rho H Ev HN LP Hrho (su_cases a1 rho lo hi N HN)) as (_ & _ & V2).
    cbv zeta in V2. unfold eval_mag_limb1, A_jax, A_curve. cbv zeta. destruct (Rltb_spec rho rs); [lra|]. cbn [c_k c_apk]. apply V2; auto; [|lra].
    assert (Sn : nth 0 (su_limb1 a1 rho (logspace lo hi N)) None = None). { unfold su_limb1. rewrite Ez. destruct N as [|N']; [lia|]. cbn. destruct (Reqb_spec 0 0); [reflexivity|lra]. }
    rewrite (sk_nan g (su_limb1 a1) lo hi N) by (auto; unfold su_limb1; rewrite !map_length; apply logspace_len). destruct N; reflexivity.
Qed.
Print Assumptions C80_combined_tiny_refuted.
(** the defaults: a source of radius 1e-6 at the impact parameter 1/10, coefficient 1/2 *)
Example C80_combined_case : forall g ellipk ellipe, exists k apk, construct_mag g (-6) 3 1024 = Ok (k, apk) /\ eval_mag_limb g ellipk ellipe (-6) 3 1024 (k, apk) 0.1 (1 / 1000000) 0.5 = Ok None.
Proof.
  intros g ek ee. destruct (C80_combined_tiny_refuted g ek ee (-6) 3 1024 ltac:(lra) ltac:(lra) eq_refl ltac:(apply Nat.leb_le; reflexivity)) as (k & apk & E & W). exists k, apk. split; [exact E|].
  apply W; [lra| |rewrite Rabs_pos_eq; lra|].
  - replace (-6) with (- INR 6) by (simpl; lra). rewrite Rpower_Ropp, Rpower_pow by lra. lra.
  - rewrite Rabs_pos_eq by lra. apply Rle_trans with (Rpower 10 0); [rewrite Rpower_O; lra|apply Rle_Rpower; lra].
Qed.
