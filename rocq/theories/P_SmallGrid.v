(** NaN in the transform: grids of 8 to 15 points without padding, and inputs that contain NaN. *)
From Coq Require Import Reals List Bool Arith ZArith Lia Lra.
From Coquelicot Require Import Coquelicot.
From Verif Require Import Base_R Base_C Base_List M_Fftlog M_MagFft M_MagCurve S_Fftlog S_MagCurve P_Fftlog P_FftConv P_HankelConv P_MagCurve P_MagSamples.
Import ListNotations.
Local Open Scope R_scope.

Lemma extrap0 x : log_extrap x 0 0 = Ok x.
Proof. unfold log_extrap. cbn [andb orb Nat.ltb Nat.leb seq map app]. rewrite app_nil_r. reflexivity. Qed.
Lemma extrap_len x nl nh x2 : log_extrap x nl nh = Ok x2 -> length x2 = (nl + length x + nh)%nat.
Proof. unfold log_extrap. cbv zeta. destruct (_ && _)%bool; [discriminate|]. intros E. injection E as <-. rewrite !app_length, !map_length, !seq_length. lia. Qed.
Lemma removelast_len {A} (l : list A) : length (removelast l) = (length l - 1)%nat.
Proof. induction l as [|a l IH]; [reflexivity|]. destruct l as [|b l]; [reflexivity|]. change (S (length (removelast (b :: l))) = length (b :: l)). rewrite IH. cbn. lia. Qed.
Lemma init_same x q q' npad s : length q = length x -> length q' = length x -> fftlog_init x q 0 0 npad = Ok s ->
  exists s', fftlog_init x q' 0 0 npad = Ok s' /\ f_x s' = f_x s /\ f_N s' = f_N s /\ f_high s' = f_high s /\ f_low s' = f_low s /\
  let f := if (npad =? 0)%nat then q' else repeat (Some 0) npad ++ q' ++ repeat (Some 0) npad in
  (f_fx s' = f \/ f_fx s' = removelast f) /\ length (f_fx s') = length (f_x s') /\ (npad = 0%nat -> Nat.even (length x) = true -> f_N s = length x).
Proof.
  intros Lq Lq'. unfold fftlog_init. destruct (length x <? 2)%nat; [discriminate|]. rewrite !extrap0. cbn [bind]. rewrite Lq, Lq', Nat.eqb_refl. cbn [negb].
  destruct (npad =? 0)%nat eqn:Ep.
  - cbn [bind]. destruct (Nat.odd (length x)) eqn:Eo; intros E; injection E as <-; eexists; (split; [reflexivity|]); cbn; repeat split; auto; try (rewrite ?removelast_len; lia).
    intros _ Ev. rewrite <- Nat.negb_even, Ev in Eo. discriminate.
  - assert (Np : npad <> 0%nat) by (intros ->; discriminate). destruct (log_extrap x npad npad) as [x2|] eqn:Ex2; [|discriminate]. apply extrap_len in Ex2. cbn [bind]. destruct (Nat.odd (length x + 2 * npad)); intros E; injection E as <-; eexists; (split; [reflexivity|]); cbn; repeat split; auto; try (intros; contradiction); rewrite ?removelast_len, !app_length, !repeat_length; lia.
Qed.
Lemma Fy_length g nu w ell s : length (Fy_array g nu w ell s) = f_N s.
Proof.
  unfold Fy_array. cbv zeta. repeat match goal with |- context [match ?x with _ => _ end] => destruct x end; rewrite ?repeat_length, ?map_length, ?seq_length; reflexivity.
Qed.
Lemma all_num_none l : In None l -> all_num l = None.
Proof. induction l as [|[x|] l IH]; cbn; [tauto| |auto]. intros [|H]; [discriminate|]. rewrite IH by auto. reflexivity. Qed.
Lemma combine_none (y : list num) k : map (fun '(y, F) => nmul F (nsqrt (nbind y (fun y => Some (2 * y / PI))))) (combine y (repeat None k)) = repeat None (min (length y) k).
Proof. revert k. induction y as [|a y IH]; intros [|k]; try reflexivity. cbn [repeat combine map length Nat.min]. rewrite IH. destruct a; reflexivity. Qed.
Lemma skipn_repeat {A} (a : A) i k : skipn i (repeat a k) = repeat a (k - i).
Proof. revert k. induction i as [|i IH]; intros [|k]; try reflexivity. cbn. apply IH. Qed.
Lemma firstn_repeat {A} (a : A) i k : firstn i (repeat a k) = repeat a (min i k).
Proof. revert k. induction i as [|i IH]; intros [|k]; try reflexivity. cbn. f_equal. apply IH. Qed.

Lemma hankel_nan g nu w w' n x fx fx' npad y F : length fx = length x -> length fx' = length x -> hankel g nu w n x fx 0 0 npad = Ok (y, F) ->
  (npad = 0%nat /\ Nat.even (length x) = true /\ cut_of w' (length x) = 1%nat) \/ ((0 < npad)%nat /\ (1 <= length x)%nat /\ nth 0 fx' (Some 0) = None) ->
  hankel g nu w' n x fx' 0 0 npad = Ok (y, repeat None (length F)).
Proof.
  intros L L' H Hc. unfold hankel in *. set (q := map _ (combine x fx)) in H. set (q' := map _ (combine x fx')).
  assert (Lq : length q = length x) by (unfold q; rewrite map_length, combine_length; lia). assert (Lq' : length q' = length x) by (unfold q'; rewrite map_length, combine_length; lia).
  destruct (fftlog_init x q 0 0 npad) as [s|] eqn:Es; [|discriminate]. cbn [bind] in H. destruct (init_same x q q' npad s Lq Lq' Es) as (s' & -> & Ex & EN & Eh & El & Ef & Lf & Ev). cbn [bind].
  unfold fftlog in *. injection H as Hy HF.
  assert (Ey : slice s' (y_array (n - 0.5) s') = y) by (rewrite <- Hy; unfold slice, y_array; rewrite Ex, EN, Eh, El; reflexivity).
  assert (EF : Fy_array g nu w' (n - 0.5) s' = repeat None (f_N s')).
  { destruct Hc as [(-> & Hev & Hcut)|(Hp & Hx & Hn)].
    - apply one_cut_nan. rewrite EN, Ev by auto. exact Hcut.
    - unfold Fy_array. cbv zeta. rewrite all_num_none; [reflexivity|].
      assert (Q : In None (f_fx s')).
      { clear - Hx Hn Hp Ef L'. destruct x as [|x0 x]; [cbn in Hx; lia|]. destruct fx' as [|f0 fx']; [discriminate|]. cbn in Hn. subst f0.
        assert (Eq : exists q2, q' = None :: q2). { unfold q'. cbn [combine map]. eexists. f_equal. destruct (nsqrt x0); reflexivity. }
        destruct Eq as (q2 & Eq). destruct (npad =? 0)%nat eqn:E0; [apply Nat.eqb_eq in E0; lia|]. rewrite Eq in Ef. destruct Ef as [-> | ->].
        - apply in_or_app. right. left. reflexivity.
        - destruct npad as [|np]; [lia|]. rewrite removelast_app by discriminate. apply in_or_app. right. rewrite <- app_comm_cons. cbn [removelast]. destruct (q2 ++ repeat (Some 0) (S np)) eqn:Z; [destruct q2; discriminate|left; reflexivity]. }
      destruct (In_nth _ _ (Some 0) Q) as (i & Hi & Ei). unfold fb_array. apply in_map_iff. exists (nth i (combine (f_fx s') (f_x s')) (Some 0, Some 0)). split; [|apply nth_In; rewrite combine_length; lia].
      rewrite combine_nth by auto. rewrite Ei. reflexivity. }
  rewrite Ey. do 2 f_equal. rewrite EF. unfold slice. rewrite skipn_repeat, firstn_repeat, combine_none. f_equal. rewrite <- HF, map_length, combine_length, Hy. f_equal. unfold slice. rewrite firstn_length, skipn_length, Fy_length, EN, El, Eh. reflexivity.
Qed.
(** the spectrum of the point source on a grid of 8 to 15 points without extrapolation *)
Lemma Apk_small g lo hi N : lo < hi -> Nat.even N = true -> (8 <= N < 16)%nat ->
  init_Apk g lo hi N 0 = Ok (map Some (rgeom (0.5 / Rpower 10 hi) (Rpower 10 ((hi - lo) / INR (N - 1))) N), repeat None N).
Proof.
  intros H Ev HN. set (r := Rpower 10 ((hi - lo) / INR (N - 1))). assert (Hr : 0 < r) by apply Rpower_pos. assert (Hr1 : r <> 1) by (apply ratio_neq1; auto; lia).
  destruct (hankel_conv g 0 r N 0 Hr Hr1 ltac:(lia) ltac:(left; auto)) as (kappa & HK).
  { unfold cut_of. rewrite Rmult_0_l. unfold Rdiv. rewrite Rmult_0_l. rewrite <- (Int_part_spec 0 0); [discriminate|lra]. }
  unfold init_Apk. cbv zeta. replace (map (fun u => Some (u2Au u)) (logspace lo hi N)) with (map Some (map u2Au (logspace lo hi N))) by (rewrite map_map; reflexivity).
  rewrite logspace_geom at 1. fold r. rewrite <- geom_map_Some. pose proof (HK (Rpower 10 lo) (map u2Au (logspace lo hi N)) (Rpower_pos _ _) ltac:(rewrite map_length; apply logspace_len)) as E. cbv zeta in E.
  assert (Lg : length (geom (Rpower 10 lo) r N) = N) by (rewrite geom_map_Some, map_length; apply rgeom_len).
  set (f := map Some (map u2Au (logspace lo hi N))) in *. assert (Lf : length f = N) by (unfold f; rewrite !map_length; apply logspace_len). clearbody f.
  match type of E with _ = Ok (?y, ?F) => assert (T : hankel g 1.5 0.25 0 (geom (Rpower 10 lo) r N) f 0 0 0 = Ok (y, repeat None (length F))) end.
  { apply (hankel_nan g 1.5 0 0.25 0 (geom (Rpower 10 lo) r N) f f 0 _ _); [congruence|congruence|exact E|]. left. rewrite Lg. split; auto. split; auto. rewrite cut_default. symmetry. apply (Nat.div_unique N 8 1 (N - 8)); lia. }
  rewrite T. cbn [bind]. rewrite !map_length, seq_length, geom_map_Some. do 2 f_equal.
  - do 2 f_equal. f_equal. pose proof (logspace_last lo hi N ltac:(lia)) as Lst. rewrite logspace_geom, rgeom_at in Lst by lia. exact Lst.
  - clear. induction N as [|N IH]; [reflexivity|]. cbn [repeat map nmap option_map]. f_equal. exact IH.
Qed.
Lemma samples_small g lo hi N sk rho : lo < hi -> (2 <= N)%nat -> let k := rgeom (0.5 / Rpower 10 hi) (Rpower 10 ((hi - lo) / INR (N - 1))) N in
  length (sk (map Some k) rho) = N -> fft_samples g sk (map Some k) (repeat None N) rho = Ok (map Some (logspace lo hi N), repeat None N).
Proof.
  intros H HN k Ls. unfold fft_samples. cbv zeta. set (r := Rpower 10 ((hi - lo) / INR (N - 1))) in *. assert (Hr : 0 < r) by apply Rpower_pos. assert (Hr1 : r <> 1) by (apply ratio_neq1; auto).
  assert (Lk : length k = N) by apply rgeom_len. assert (Hk : 0 < 0.5 / Rpower 10 hi) by (apply Rdiv_lt_0_compat; [lra|apply Rpower_pos]).
  destruct (kernel_exists g r N 512 Hr Hr1 HN ltac:(right; lia) ltac:(lia)) as [kappa HK]. pose proof (HK (0.5 / Rpower 10 hi) (repeat 0 N) Hk (repeat_length _ _)) as E. cbv zeta in E. fold k in E.
  match goal with |- context [hankel _ _ _ _ _ ?l _ _ _] => set (cj := l) end.
  assert (Lc : length cj = N) by (unfold cj; rewrite map_length, !combine_length, map_length, repeat_length, Lk, Ls; lia).
  match type of E with _ = Ok (?y, ?F) => assert (T : hankel g 1.5 0.25 0 (map Some k) cj 0 0 512 = Ok (y, repeat None (length F))) end.
  { apply (hankel_nan g 1.5 0.25 0.25 0 (map Some k) (map Some (repeat 0 N)) cj 512 _ _); [rewrite !map_length, repeat_length, Lk; reflexivity|rewrite map_length, Lk; exact Lc|exact E|].
    right. rewrite map_length, Lk. split; [apply Nat.ltb_lt; reflexivity|]. split; [lia|]. clear - Lk HN Ls. unfold cj. clear cj. destruct k as [|k0 k']; [cbn in Lk; lia|]. destruct N as [|N']; [lia|]. cbn [map] in *. destruct (sk _ rho) as [|s0 ss]; [discriminate|]. reflexivity. }
  rewrite T. cbn [bind]. rewrite !map_length, rgeom_len. do 2 f_equal.
  - f_equal. apply (grid_back lo hi N HN).
  - clear. induction N as [|N IH]; [reflexivity|]. cbn [repeat map nmap option_map]. f_equal. exact IH.
Qed.
(** interpolation between NaN samples *)
Lemma seg_nan b : forall K x, (forall p, In p K -> fst p < b -> snd p = None) -> x < b -> match K with [] => True | p :: _ => fst p <= x end -> seg_jax x K = None.
Proof.
  induction K as [|(x1 & f1) K IH]; intros x HK Hx H1; [reflexivity|]. assert (E1 : f1 = None) by (apply (HK (x1, f1)); [left; reflexivity|cbn in *; lra]). subst f1.
  destruct K as [|(x2 & f2) K]; [reflexivity|]. cbn [seg_jax]. destruct (Rltb_spec x x2) as [|L].
  - cbn [orb]. destruct (Reqb x2 x1); reflexivity.
  - destruct K as [|p K]; [cbn [orb]; destruct (Reqb x2 x1); reflexivity|]. cbn [orb]. apply IH; auto; [intros q Hq; apply HK; right; exact Hq|cbn in *; lra].
Qed.
Lemma interp_nan b K x right : (forall p, In p K -> fst p < b -> snd p = None) -> x < b -> match K with [] => True | p :: _ => fst p < b end -> x <= fst (last K (0, None)) -> interp_jax x K right = None.
Proof.
  intros HK Hx H1 HL. destruct K as [|(x0 & f0) K]; [reflexivity|]. assert (E : f0 = None) by (apply (HK (x0, f0)); [left; reflexivity|exact H1]). subst f0. unfold interp_jax. destruct (Rltb_spec x x0) as [|L0]; [reflexivity|].
  assert (Q : forall (l : list (R * num)) a d d', last (a :: l) d = last (a :: l) d'). { clear. induction l as [|c l IH]; intros a d d'; [reflexivity|]. change (last (c :: l) d = last (c :: l) d'). apply IH. }
  rewrite (Q K _ _ (0, None)). destruct (Rltb_spec (fst (last ((x0, None) :: K) (0, None))) x); [lra|]. apply (seg_nan b); auto. cbn. lra.
Qed.
Lemma trunc_nan u : log_knots (trunc_jax (map Some u) (repeat None (length u))) = map (fun u => if Rltb u 100 then (lg u, None) else (lg 100, Some 1)) u.
Proof. unfold log_knots, trunc_jax. induction u as [|x u IH]; [reflexivity|]. cbn [length repeat map combine]. rewrite IH. destruct (Rltb x 100); reflexivity. Qed.
Lemma large_nan lo hi N x : lo < hi -> (2 <= N)%nat -> lo < 2 -> 0 < x < 100 -> x <= Rpower 10 hi ->
  interp_jax (lg x) (log_knots (trunc_jax (map Some (logspace lo hi N)) (repeat None N))) (Some 1) = None.
Proof.
  intros H HN H2 (Hx & Hx2) Hh. pose proof (logspace_len lo hi N) as L. replace (repeat None N) with (repeat (@None R) (length (logspace lo hi N))) by (rewrite L; reflexivity). rewrite trunc_nan.
  assert (E100 : Rpower 10 2 = 100) by (replace 2 with (INR 2) by (simpl; lra); rewrite Rpower_pow by lra; lra).
  apply (interp_nan (lg 100)).
  - intros p Hp. apply in_map_iff in Hp. destruct Hp as (v & <- & _). destruct (Rltb_spec v 100); [reflexivity|]. cbn [fst]. lra.
  - apply log10_incr; lra.
  - destruct (logspace lo hi N) as [|v l] eqn:El; [exact I|]. assert (Ev : v = Rpower 10 lo). { rewrite <- (logspace_first lo hi N HN), El. reflexivity. }
    assert (v < 100) by (rewrite Ev, <- E100; apply Rpower_lt; lra). cbn [map]. destruct (Rltb_spec v 100); [|lra]. cbn [fst]. apply log10_incr; [|lra]. rewrite Ev. apply Rpower_pos.
  - assert (Q : forall (l : list (R * num)) d, last l d = nth (length l - 1) l d). { clear. intros l d. induction l as [|a l IH]; [reflexivity|]. destruct l as [|b l]; [reflexivity|]. change (last (a :: b :: l) d) with (last (b :: l) d). rewrite IH. simpl. rewrite Nat.sub_0_r. reflexivity. }
    rewrite Q, map_length, L, (nth_map_lt _ _ _ 0) by lia. rewrite logspace_last by auto. destruct (Rltb (Rpower 10 hi) 100); cbn [fst]; apply log10_le; lra.
Qed.
