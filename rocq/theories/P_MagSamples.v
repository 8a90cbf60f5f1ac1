(** Proofs: the samples behind the light curve. *)
From Coq Require Import Reals List Bool Arith ZArith Lia Lra.
From Coquelicot Require Import Coquelicot.
From Verif Require Import Base_R Base_C Base_List M_Fftlog M_MagFft M_MagCurve S_Fftlog S_MagCurve P_Fftlog P_FftConv P_HankelConv P_MagCurve.
Import ListNotations.
Local Open Scope R_scope.

(** ** the grid *)
Lemma logspace_geom lo hi N : logspace lo hi N = rgeom (Rpower 10 lo) (Rpower 10 ((hi - lo) / INR (N - 1))) N.
Proof. unfold logspace, rgeom. apply map_ext. intros i. rewrite Rpower_mult, <- Rpower_plus. f_equal. ring. Qed.
Lemma ratio_neq1 lo hi N : lo < hi -> (2 <= N)%nat -> Rpower 10 ((hi - lo) / INR (N - 1)) <> 1.
Proof.
  intros H HN. assert (0 < INR (N - 1)) by (apply lt_0_INR; lia). assert (0 < (hi - lo) / INR (N - 1)) by (apply Rdiv_lt_0_compat; lra).
  apply Rgt_not_eq. rewrite <- (Rpower_O 10) by lra. apply Rpower_lt; lra.
Qed.
Lemma rgeom_increasing a r n : 0 < a -> 1 < r -> increasing (rgeom a r n).
Proof. intros Ha Hr i Hi. rewrite rgeom_len in Hi. rewrite !rgeom_at by lia. apply Rmult_lt_compat_l; auto. apply Rpower_lt; auto. apply lt_INR. lia. Qed.
Lemma logspace_increasing lo hi N : lo < hi -> increasing (logspace lo hi N).
Proof.
  intros H. rewrite logspace_geom. destruct (Nat.lt_ge_cases N 2); [intros i Hi; rewrite rgeom_len in Hi; lia|]. apply rgeom_increasing; [apply Rpower_pos|].
  rewrite <- (Rpower_O 10) by lra. apply Rpower_lt; try lra. apply Rdiv_lt_0_compat; [lra|]. apply lt_0_INR. lia.
Qed.
Lemma logspace_pos lo hi N u : In u (logspace lo hi N) -> 0 < u.
Proof. unfold logspace. intros H. apply in_map_iff in H. destruct H as (i & <- & _). apply Rpower_pos. Qed.
Lemma logspace_len lo hi N : length (logspace lo hi N) = N. Proof. rewrite logspace_geom. apply rgeom_len. Qed.
Lemma logspace_first lo hi N : (2 <= N)%nat -> nth 0 (logspace lo hi N) 0 = Rpower 10 lo.
Proof. intros H. rewrite logspace_geom, rgeom_at by lia. simpl (INR 0). rewrite Rpower_O by apply Rpower_pos. ring. Qed.
Lemma logspace_last lo hi N : (2 <= N)%nat -> nth (N - 1) (logspace lo hi N) 0 = Rpower 10 hi.
Proof.
  intros H. assert (0 < INR (N - 1)) by (apply lt_0_INR; lia). rewrite logspace_geom, rgeom_at by lia. rewrite Rpower_mult, <- Rpower_plus. f_equal. field. lra.
Qed.

(** ** the samples of the curve *)
Definition sample_sum (kappa : R -> R) (k P S : list R) (rho u : R) : R :=
  1 + sumR (map (fun i => nth i P 0 * nth i k 0 ^ 2 * nth i S 0 * exp (- (nth i k 0 * rho / (40 * PI)) ^ 2) * kappa (nth i k 0 * u)) (seq 0 (length k))) / (2 * PI).
(** [kappa] is the kernel of the order-zero transform with [npad] zeros on each side, on grids of [n] points and ratio [r] *)
Definition kernel_of (g : C -> C) (r : R) (n npad : nat) (kappa : R -> R) : Prop :=
  forall x0 (f : list R), 0 < x0 -> length f = n -> let x := rgeom x0 r n in let y := rgeom (0.5 / (x0 * Rpower r (INR (n - 1)))) r n in
  hankel g 1.5 0.25 0 (map Some x) (map Some f) 0 0 npad = Ok (map Some y, map Some (map (fun y => sumR (map (fun i => nth i f 0 * kappa (nth i x 0 * y)) (seq 0 n))) y)).
Lemma kernel_exists g r n npad : 0 < r -> r <> 1 -> (2 <= n)%nat -> Nat.even n = true \/ (0 < npad)%nat -> (16 <= n + 2 * npad)%nat -> exists kappa, kernel_of g r n npad kappa.
Proof.
  intros Hr Hr1 Hn Hc H16. destruct (hankel_conv g 0.25 r n npad Hr Hr1 Hn Hc) as [kappa HK].
  { rewrite cut_default. assert (16 <= 2 * half_size n npad)%nat. { unfold half_size. pose proof (Nat.div_mod (n + 2 * npad) 2 ltac:(lia)). pose proof (Nat.mod_upper_bound (n + 2 * npad) 2 ltac:(lia)). lia. }
    assert (16 / 8 <= 2 * half_size n npad / 8)%nat by (apply Nat.div_le_mono; lia). change (16 / 8)%nat with 2%nat in *. lia. }
  exists kappa. intros x0 f Hx Hf x y. unfold x, y. rewrite <- !geom_map_Some. rewrite (HK x0 f Hx Hf). do 3 f_equal. unfold rgeom at 2. rewrite map_map. apply map_ext. intros j. apply sumR_ext. intros i Hi. apply in_seq in Hi. rewrite rgeom_at by lia. reflexivity.
Qed.
Lemma fft_samples_val g r n kappa : kernel_of g r n 512 kappa ->
  forall k0 sk (P S : list R) rho, 0 < k0 -> rho <> 0 -> length P = n -> length S = n -> let k := rgeom k0 r n in sk (map Some k) rho = map Some S ->
  let u := rgeom (0.5 / (k0 * Rpower r (INR (n - 1)))) r n in
  fft_samples g sk (map Some k) (map Some P) rho = Ok (map Some u, map Some (map (sample_sum kappa k P S rho) u)).
Proof.
  intros HK k0 sk P S rho Hk Hrho HP HS k Esk u. pose proof PI_RGT_0 as Hpi. unfold fft_samples. cbv zeta. rewrite Esk.
  set (c := map (fun i => nth i P 0 * nth i k 0 ^ 2 * nth i S 0 * exp (- (nth i k 0 / (2 * PI / rho) / 20) ^ 2)) (seq 0 n)).
  assert (Lk : length k = n) by apply rgeom_len.
  match goal with |- context [hankel _ _ _ _ _ ?l _ _ _] => assert (Ec : l = map Some c) end.
  { apply (list_eq_nth None).
    - rewrite map_length, !combine_length, !map_length. unfold c. rewrite map_length, seq_length. lia.
    - intros i Hi. rewrite map_length, !combine_length, !map_length in Hi. rewrite (nth_map_lt _ _ i (None, None, None)) by (rewrite !combine_length, !map_length; lia).
      rewrite combine_nth by (rewrite combine_length, !map_length; lia). rewrite combine_nth by (rewrite !map_length; lia). rewrite !(nth_map_lt Some _ i 0) by (unfold c; rewrite ?map_length, ?seq_length; lia).
      unfold c. rewrite (nth_map_lt _ _ i O) by (rewrite seq_length; lia). rewrite seq_nth by lia. reflexivity. }
  rewrite Ec. unfold k at 1. rewrite (HK k0 c Hk) by (unfold c; rewrite map_length, seq_length; auto). cbn [bind]. fold u. do 2 f_equal.
  rewrite !map_map. apply map_ext_in. intros v Hv. cbn [nmap option_map]. f_equal. unfold sample_sum. rewrite Lk. fold k.
  rewrite (sumR_ext (fun i => nth i c 0 * _) (fun i => nth i P 0 * nth i k 0 ^ 2 * nth i S 0 * exp (- (nth i k 0 * rho / (40 * PI)) ^ 2) * kappa (nth i k 0 * v))).
  - generalize (sumR (map (fun i => nth i P 0 * nth i k 0 ^ 2 * nth i S 0 * exp (- (nth i k 0 * rho / (40 * PI)) ^ 2) * kappa (nth i k 0 * v)) (seq 0 n))). intros q. field. lra.
  - intros i Hi. apply in_seq in Hi. unfold c. rewrite (nth_map_lt _ _ i O) by (rewrite seq_length; lia). rewrite seq_nth by lia. cbn [Nat.add].
    replace (nth i k 0 / (2 * PI / rho) / 20) with (nth i k 0 * rho / (40 * PI)) by (field; lra). reflexivity.
Qed.
(** ** the transform of the point-source curve *)
Lemma u2Au_pos u : 0 < u -> 0 < u2Au u.
Proof.
  intros Hu. unfold u2Au. apply Rmult_lt_0_compat; [|apply pow_lt; auto]. assert (0 < sqrt (u ^ 2 + 4)) by (apply sqrt_lt_R0; nra).
  assert (H1 : sqrt (u ^ 2 + 4) * u < u ^ 2 + 2). { apply Rsqr_incrst_0; [|apply Rmult_le_pos; lra|nra]. unfold Rsqr. replace (sqrt (u ^ 2 + 4) * u * (sqrt (u ^ 2 + 4) * u)) with (sqrt (u ^ 2 + 4) * sqrt (u ^ 2 + 4) * (u * u)) by ring. rewrite sqrt_sqrt by nra. nra. }
  replace ((u ^ 2 + 2) / sqrt (u ^ 2 + 4) / u - 1) with ((u ^ 2 + 2 - sqrt (u ^ 2 + 4) * u) / (sqrt (u ^ 2 + 4) * u)) by (field; lra). apply Rdiv_lt_0_compat; [lra|apply Rmult_lt_0_compat; auto].
Qed.
Lemma init_Apk_val g lo hi N next : lo < hi -> Nat.even N = true -> (16 <= N + 2 * next)%nat -> (2 <= N)%nat ->
  exists P, length P = N /\ init_Apk g lo hi N next = Ok (map Some (rgeom (0.5 / Rpower 10 hi) (Rpower 10 ((hi - lo) / INR (N - 1))) N), map Some P).
Proof.
  intros H Ev HN HN2. set (r := Rpower 10 ((hi - lo) / INR (N - 1))). assert (Hr : 0 < r) by apply Rpower_pos. assert (Hr1 : r <> 1) by (apply ratio_neq1; auto).
  assert (Hx : 0 < Rpower 10 lo) by apply Rpower_pos.
  destruct (hankel_extrap g 0.25 r N next next (Rpower 10 lo) (map u2Au (logspace lo hi N))) as (Q & LQ & E); auto.
  - rewrite !Nat.even_add. rewrite Ev. destruct (Nat.even next); reflexivity.
  - rewrite cut_default. assert (16 / 8 <= (N + next + next) / 8)%nat by (apply Nat.div_le_mono; lia). change (16 / 8)%nat with 2%nat in *. lia.
  - rewrite map_length, logspace_len. reflexivity.
  - intros i Hi. rewrite (nth_map_lt _ _ i 0) by (rewrite logspace_len; auto). apply u2Au_pos. apply (logspace_pos lo hi N). apply nth_In. rewrite logspace_len. auto.
  - exists (map (fun a => a * 2 * PI) Q). split; [rewrite map_length; auto|]. unfold init_Apk. cbv zeta. replace (map (fun u => Some (u2Au u)) (logspace lo hi N)) with (map Some (map u2Au (logspace lo hi N))) by (rewrite map_map; reflexivity).
    rewrite logspace_geom at 1. fold r. rewrite <- geom_map_Some, E. cbn [bind]. rewrite geom_map_Some. do 2 f_equal; [|rewrite !map_map; reflexivity].
    do 2 f_equal. f_equal. pose proof (logspace_last lo hi N HN2) as Lst. rewrite logspace_geom, rgeom_at in Lst by lia. exact Lst.
Qed.
Lemma grid_back lo hi N : (2 <= N)%nat -> let r := Rpower 10 ((hi - lo) / INR (N - 1)) in
  rgeom (0.5 / (0.5 / Rpower 10 hi * Rpower r (INR (N - 1)))) r N = logspace lo hi N.
Proof.
  intros HN r. rewrite logspace_geom. fold r. f_equal. pose proof (logspace_last lo hi N HN) as Lst. rewrite logspace_geom, rgeom_at in Lst by lia. fold r in Lst. rewrite <- Lst.
  pose proof (Rpower_pos 10 lo). pose proof (Rpower_pos r (INR (N - 1))). assert (Q : forall c a b, c <> 0 -> a <> 0 -> b <> 0 -> c / (c / (a * b) * b) = a) by (intros; field; auto). apply Q; lra.
Qed.
(** without extrapolation the transform is a sum over the grid *)
Lemma init_Apk_jax g lo hi N kappa : lo < hi -> (2 <= N)%nat -> let r := Rpower 10 ((hi - lo) / INR (N - 1)) in let u := logspace lo hi N in let k := rgeom (0.5 / Rpower 10 hi) r N in
  kernel_of g r N 0 kappa ->
  init_Apk g lo hi N 0 = Ok (map Some k, map Some (map (fun k => 2 * PI * sumR (map (fun i => (A_point (nth i u 0) - 1) * nth i u 0 ^ 2 * kappa (nth i u 0 * k)) (seq 0 N))) k)).
Proof.
  intros H HN r u k HK. unfold init_Apk. cbv zeta. fold u. replace (map (fun u => Some (u2Au u)) u) with (map Some (map u2Au u)) by (rewrite map_map; reflexivity).
  assert (Eu : u = rgeom (Rpower 10 lo) r N) by (unfold u; apply logspace_geom).
  pose proof (HK (Rpower 10 lo) (map u2Au u) (Rpower_pos _ _)) as E. rewrite <- Eu in E. cbv zeta in E. rewrite E by (unfold u; rewrite map_length, logspace_len; auto). cbn [bind].
  assert (Ek : rgeom (0.5 / (Rpower 10 lo * Rpower r (INR (N - 1)))) r N = k). { unfold k. do 2 f_equal. pose proof (logspace_last lo hi N HN) as Lst. rewrite logspace_geom, rgeom_at in Lst by lia. exact Lst. }
  rewrite Ek. do 2 f_equal. rewrite !map_map. apply map_ext. intros q. cbn [nmap option_map]. f_equal. rewrite Rmult_assoc, (Rmult_comm _ (2 * PI)). f_equal. apply sumR_ext. intros i Hi. apply in_seq in Hi.
  rewrite (nth_map_lt u2Au u i 0) by (unfold u; rewrite logspace_len; lia). f_equal. assert (P : 0 < nth i u 0) by (apply (logspace_pos lo hi N), nth_In; rewrite logspace_len; lia).
  unfold u2Au, A_point. rewrite (Rabs_pos_eq (nth i u 0)) by lra. f_equal. assert (0 < sqrt (nth i u 0 ^ 2 + 4)) by (apply sqrt_lt_R0; nra). field. lra.
Qed.
(** everything together: on the original grid the light curve is [1] plus a sum over the frequencies, the same for every profile *)
Lemma freq_rgeom lo hi N : (2 <= N)%nat -> let k := rgeom (0.5 / Rpower 10 hi) (Rpower 10 ((hi - lo) / INR (N - 1))) N in forall i, (i < N)%nat -> nth i k 0 = 0.5 / nth (N - 1 - i) (logspace lo hi N) 0.
Proof.
  intros HN k i Hi. unfold k. rewrite rgeom_at by auto. rewrite logspace_geom, rgeom_at by lia. set (r := Rpower 10 ((hi - lo) / INR (N - 1))). pose proof (logspace_last lo hi N HN) as Lst. rewrite logspace_geom, rgeom_at in Lst by lia. fold r in Lst. rewrite <- Lst.
  rewrite <- (y_grid (Rpower 10 lo) r N i) by (auto; apply Rpower_pos). reflexivity.
Qed.
Lemma samples g lo hi N kappa : lo < hi -> (2 <= N)%nat -> let r := Rpower 10 ((hi - lo) / INR (N - 1)) in let k := rgeom (0.5 / Rpower 10 hi) r N in kernel_of g r N 512 kappa ->
  forall sk P rho S, rho <> 0 -> length P = N -> length S = N -> sk (map Some k) rho = map Some S ->
  fft_samples g sk (map Some k) (map Some P) rho = Ok (map Some (logspace lo hi N), map Some (map (sample_sum kappa k P S rho) (logspace lo hi N))).
Proof.
  intros H HN r k HK sk P rho S Hrho HP HS Esk. pose proof (Rpower_pos 10 hi) as Hh. unfold k.
  rewrite (fft_samples_val g r N kappa HK (0.5 / Rpower 10 hi) sk P S rho) by (auto; apply Rdiv_lt_0_compat; lra). pose proof (grid_back lo hi N HN) as GB. cbv zeta in GB. fold r in GB. rewrite GB. reflexivity.
Qed.

(** ** the light curve of a profile given by a function of frequency times radius *)
Definition prof (s : R -> R) : list num -> R -> list num := per_k (fun x => Some (s x)).
Lemma prof_real s (k : list R) rho : prof s (map Some k) rho = map Some (map (fun k => s (k * rho)) k).
Proof. unfold prof, per_k. rewrite !map_map. reflexivity. Qed.
Lemma spectral_sum kappa k P s rho u : sample_sum kappa k P (map (fun k => s (k * rho)) k) rho u = spectral kappa k P s rho u.
Proof.
  unfold sample_sum, spectral. f_equal. unfold Rdiv at 1. rewrite Rmult_comm. f_equal.
  
  apply sumR_ext. intros i Hi. apply in_seq in Hi. rewrite (nth_map_lt (fun k => s (k * rho)) k i 0) by lia. reflexivity.
Qed.
Lemma curve_through uf af : length uf = length af -> increasing uf -> (forall u, In u uf -> 0 < u) -> (0 < length uf)%nat -> through (curve_of uf af) uf af.
Proof.
  intros Hl Hi Hp H0. split; [intros u Hu; apply curve_far; auto|]. split; [intros u H Hu; apply curve_left; auto|]. split; intros i u; intros.
  - apply curve_between; auto.
  - apply curve_tail; auto.
Qed.
(** the small-source table *)
Lemma ext_val g s lo hi N pad : lo < hi -> (2 <= N)%nat -> Nat.even N = true \/ (0 < pad)%nat -> (16 <= N + 2 * pad)%nat ->
  exists K, K <> [] /\ wsorted K /\ init_Aext0 g (prof s) lo hi N pad = Ok (lift K).
Proof.
  intros H HN Hc H16. set (r := Rpower 10 ((hi - lo) / INR (N - 1))). assert (Hr : 0 < r) by apply Rpower_pos. assert (Hr1 : r <> 1) by (apply ratio_neq1; auto).
  destruct (kernel_exists g r N pad Hr Hr1 HN Hc H16) as [kappa HK].
  unfold init_Aext0. cbv zeta. set (x := logspace lo hi N). set (c := map (fun x => x * (s (x * 1) * exp (- (x / 100) ^ 2))) x).
  match goal with |- context [hankel _ _ _ _ _ ?l _ _ _] => assert (Ec : l = map Some c) end.
  { rewrite prof_real. unfold c. clearbody x. clear. induction x as [|a x IH]; [reflexivity|]. cbn [map combine]. rewrite IH. reflexivity. }
  assert (Ex : x = rgeom (Rpower 10 lo) r N) by (apply logspace_geom). rewrite Ec, Ex. rewrite (HK (Rpower 10 lo) c) by (try apply Rpower_pos; unfold c, x; rewrite map_length, logspace_len; auto).
  cbn [bind]. rewrite knots_real.
  match goal with |- context [combine ?a ?b] => exists (combine a b); set (uu := a); set (vv := b) end.
  assert (Lu : length uu = N) by apply rgeom_len. assert (Lv : length vv = N) by (unfold vv; rewrite map_length, rgeom_len; reflexivity).
  assert (Hr2 : 1 < r). { unfold r. rewrite <- (Rpower_O 10) by lra. apply Rpower_lt; try lra. apply Rdiv_lt_0_compat; [lra|]. apply lt_0_INR. lia. }
  assert (Is : isorted (combine uu vv)). { apply combine_isorted; [congruence|]. apply rgeom_increasing; auto. apply Rdiv_lt_0_compat; [lra|]. apply Rmult_lt_0_compat; apply Rpower_pos. }
  split; [destruct uu, vv; simpl in *; try lia; discriminate|]. split; [|reflexivity].
  assert (W : forall L, isorted L -> wsorted L). { clear. induction L as [|p L IH]; intros Is; [exact I|]. destruct L as [|q L]; [exact I|]. destruct Is as [H1 H2]. split; [left; auto|apply IH; auto]. }
  exact (W _ Is).
Qed.
Definition table (K : list (R * R)) (x : R) : R := polyline K x.
Lemma small_val interp K us u rho : (forall x r, r = snd (last K (0, 0)) -> interp x (lift K) (Some r) = Some (polyline K x)) -> K <> [] ->
  A_small interp (lift K) us u rho = if Rltb u (us * rho) then Some (1 + table K (u / rho) / rho) else A_point_n u.
Proof.
  intros H Hne. unfold A_small. destruct (Rltb u (us * rho)); [|reflexivity]. rewrite (last_lift K _ (0, 0)) by auto. cbn [snd]. rewrite H by auto. cbn [nmap option_map]. f_equal. unfold table. ring.
Qed.
Section Lc.
Variables (g : C -> C) (lo hi : R) (N : nat).
Hypotheses (Hlo : lo < hi) (Hev : Nat.even N = true) (HN : (2 <= N)%nat).
Let uf := logspace lo hi N.
Let r := Rpower 10 ((hi - lo) / INR (N - 1)).
Let k := rgeom (0.5 / Rpower 10 hi) r N.
Definition big (kappa : R -> R) (P : list R) (s : R -> R) (rho : R) : R -> R := curve_of uf (map (spectral kappa k P s rho) uf).
Lemma big_through kappa P s rho : through (big kappa P s rho) uf (map (spectral kappa k P s rho) uf).
Proof. apply curve_through; [rewrite map_length; reflexivity|apply logspace_increasing; auto|intros u; apply logspace_pos|unfold uf; rewrite logspace_len; lia]. Qed.
Lemma big_cont kappa P s rho u : 0 < u -> continuous (big kappa P s rho) u.
Proof. apply curve_cont. Qed.
Lemma Reqb_abs u : Rltb 0 (Rabs u) = negb (Reqb u 0).
Proof. destruct (Reqb_spec u 0) as [->|H]; [rewrite Rabs_R0; destruct (Rltb_spec 0 0); [lra|reflexivity]|]. destruct (Rltb_spec 0 (Rabs u)) as [|Hn]; [reflexivity|]. exfalso. apply Hn. apply Rabs_pos_lt. auto. Qed.
Lemma Hr : 0 < r. Proof. apply Rpower_pos. Qed.
Lemma Hr1 : r <> 1. Proof. apply ratio_neq1; auto. Qed.
Lemma Lk : length k = N. Proof. apply rgeom_len. Qed.
Lemma samples_k kappa : kernel_of g r N 512 kappa -> forall s P rho, 0 < rho -> length P = N ->
  fft_samples g (prof s) (map Some k) (map Some P) rho = Ok (map Some uf, map Some (map (spectral kappa k P s rho) uf)).
Proof.
  intros HK s P rho Hrho LP. pose proof (samples g lo hi N kappa Hlo HN HK (prof s) P rho (map (fun k => s (k * rho)) k) ltac:(lra) LP) as E. cbv zeta in E. fold r in E. fold k in E. fold uf in E.
  rewrite E by (rewrite ?map_length, ?Lk; auto; apply prof_real). do 3 f_equal. apply map_ext. intros v. apply spectral_sum.
Qed.
Definition value (kappa : R -> R) (P : list R) (K : list (R * R)) (s : R -> R) (A0 : R -> num) (rs us u rho : R) : num :=
  if Rltb rho rs then (if Rltb (Rabs u) (us * rho) then Some (1 + table K (Rabs u / rho) / rho) else A_point_n (Rabs u))
  else if Reqb u 0 then A0 rho else Some (big kappa P s rho (Rabs u)).
Lemma np_curve : exists P kappa, kernel_of g r N 512 kappa /\ length P = N /\ forall s, exists K, K <> [] /\ wsorted K /\ init_np g (prof s) lo hi N = Ok (mkcurve (map Some k) (map Some P) (lift K)) /\
  forall A0 rs us u rho, 0 < rho -> A_np g (prof s) A0 rs us (mkcurve (map Some k) (map Some P) (lift K)) u rho = Ok (value kappa P K s A0 rs us u rho).
Proof.
  destruct (init_Apk_val g lo hi N 512 Hlo Hev ltac:(lia) HN) as (P & LP & E). destruct (kernel_exists g r N 512 Hr Hr1 HN ltac:(right; lia) ltac:(lia)) as [kappa HK]. exists P, kappa. split; auto. split; auto. intros s.
  destruct (ext_val g s (-5) 5 1024 1024 ltac:(lra) ltac:(lia) ltac:(right; lia) ltac:(lia)) as (K & Kne & Ks & EK). exists K. split; auto. split; auto. split.
  - unfold init_np. rewrite E. cbn [bind]. rewrite EK. reflexivity.
  - intros A0 rs us u rho Hrho. unfold A_np, A_curve, value. cbv zeta. cbn [c_aext c_k c_apk]. destruct (Rltb rho rs).
    + f_equal. apply small_val; auto. intros x w Er. apply interp_np_val; auto.
    + unfold A_large. rewrite (samples_k kappa HK) by auto. cbn [bind]. f_equal. rewrite Reqb_abs.
      destruct (Reqb u 0); [reflexivity|]. cbn [negb]. rewrite large_np; [|rewrite map_length; reflexivity|apply logspace_increasing; auto|intros v; apply logspace_pos].
      reflexivity.
Qed.
Lemma jax_curve : 2 <= hi -> (16 <= N)%nat -> exists kappa0 kappa, kernel_of g r N 0 kappa0 /\ kernel_of g r N 512 kappa /\
  let P := map (fun k => 2 * PI * sumR (map (fun i => (A_point (nth i uf 0) - 1) * nth i uf 0 ^ 2 * kappa0 (nth i uf 0 * k)) (seq 0 N))) k in
  forall s, exists K, K <> [] /\ wsorted K /\ init_jax g (prof s) lo hi N = Ok (mkcurve (map Some k) (map Some P) (lift K)) /\
  forall A0 rs us u rho, 0 < rho -> A_jax g (prof s) A0 rs us (mkcurve (map Some k) (map Some P) (lift K)) u rho = Ok (value kappa P K s A0 rs us u rho).
Proof.
  intros H2 H16. destruct (kernel_exists g r N 0 Hr Hr1 HN ltac:(left; auto) ltac:(lia)) as [kappa0 HK0]. destruct (kernel_exists g r N 512 Hr Hr1 HN ltac:(right; lia) ltac:(lia)) as [kappa HK]. exists kappa0, kappa. split; auto. split; auto. intros P s.
  pose proof (init_Apk_jax g lo hi N kappa0 Hlo HN HK0) as E. cbv zeta in E. fold r k uf in E. change (init_Apk g lo hi N 0 = Ok (map Some k, map Some P)) in E.
  assert (LP : length P = N) by (unfold P; rewrite map_length; apply Lk).
  destruct (ext_val g s lo hi N N Hlo HN ltac:(left; auto) ltac:(lia)) as (K & Kne & Ks & EK). exists K. split; auto. split; auto. split.
  - unfold init_jax. rewrite E. cbn [bind]. rewrite EK. reflexivity.
  - intros A0 rs us u rho Hrho. unfold A_jax, A_curve, value. cbv zeta. cbn [c_aext c_k c_apk]. destruct (Rltb rho rs).
    + f_equal. apply small_val; auto. intros x w Er. apply interp_jax_val; auto.
    + unfold A_large. rewrite (samples_k kappa HK) by auto. cbn [bind]. f_equal. rewrite Reqb_abs.
      destruct (Reqb u 0); [reflexivity|]. cbn [negb]. rewrite large_jax; [|rewrite map_length; reflexivity|apply logspace_increasing; auto|intros v; apply logspace_pos|].
      * reflexivity.
      * exists (Rpower 10 hi). split.
        -- rewrite <- (logspace_last lo hi N HN). unfold uf. apply nth_In. rewrite logspace_len. lia.
        -- replace 100 with (Rpower 10 2) by (replace 2 with (INR 2) by (simpl; lra); rewrite Rpower_pow by lra; lra). apply Rle_Rpower; lra.
Qed.
(** ** a short grid in jax: the curve stops at its end *)
Lemma jax_short : hi < 2 -> (16 <= N)%nat -> forall s A0 rs us st u rho, init_jax g (prof s) lo hi N = Ok st -> 0 < rho -> rs <= rho -> Rpower 10 hi < Rabs u -> A_jax g (prof s) A0 rs us st u rho = Ok (Some 1).
Proof.
  intros H2 H16 s A0 rs us st u rho E0 Hrho Hrs Hu. destruct (init_Apk_val g lo hi N 0 Hlo Hev ltac:(lia) HN) as (P & LP & E). fold r k in E. destruct (kernel_exists g r N 512 Hr Hr1 HN ltac:(right; lia) ltac:(lia)) as [kappa HK].
  unfold init_jax in E0. rewrite E in E0. cbn [bind] in E0. destruct (init_Aext0 g (prof s) lo hi N N) as [ext|]; [|discriminate]. cbn [bind] in E0. injection E0 as <-.
  unfold A_jax, A_curve. cbv zeta. cbn [c_aext c_k c_apk]. destruct (Rltb_spec rho rs); [lra|]. unfold A_large. rewrite (samples_k kappa HK) by auto. cbn [bind]. f_equal.
  pose proof (Rpower_pos 10 hi). destruct (Rltb_spec 0 (Rabs u)); [|lra]. unfold uf. set (af := map (spectral kappa k P s rho) (logspace lo hi N)). assert (La : length af = N) by (unfold af; rewrite map_length, logspace_len; auto).
  assert (Et : trunc_jax (map Some (logspace lo hi N)) (map Some af) = lift (combine (logspace lo hi N) af)).
  { unfold trunc_jax, lift. apply (list_eq_nth (0, None)); [rewrite !map_length, !combine_length, !map_length; reflexivity|]. intros i Hi. rewrite map_length, combine_length, !map_length, logspace_len in Hi.
    rewrite (nth_map_lt _ (combine (map Some (logspace lo hi N)) _) i (None, None)) by (rewrite combine_length, !map_length, logspace_len; lia). rewrite (nth_map_lt _ (combine (logspace lo hi N) af) i (0, 0)) by (rewrite combine_length, logspace_len; lia).
    rewrite !combine_nth by (rewrite ?map_length, logspace_len; auto). rewrite !(nth_map_lt Some _ i 0) by (rewrite ?logspace_len; lia). cbn [fst snd].
    destruct (Rltb_spec (nth i (logspace lo hi N) 0) 100) as [|Hn]; [reflexivity|]. exfalso. apply Hn. rewrite logspace_geom, rgeom_at by lia. apply Rle_lt_trans with (Rpower 10 hi).
    - pose proof (logspace_last lo hi N HN) as Lst. rewrite logspace_geom, rgeom_at in Lst by lia. rewrite <- Lst. apply Rmult_le_compat_l; [left; apply Rpower_pos|]. apply Rle_Rpower.
      + rewrite <- (Rpower_O 10) by lra. apply Rle_Rpower; try lra. apply Rlt_le, Rdiv_lt_0_compat; [lra|apply lt_0_INR; lia].
      + apply le_INR. lia.
    - replace 100 with (Rpower 10 2) by (replace 2 with (INR 2) by (simpl; lra); rewrite Rpower_pow by lra; lra). apply Rpower_lt; lra. }
  rewrite Et, log_lift. assert (Lk0 : length (logk (combine (logspace lo hi N) af)) = N) by (unfold logk; rewrite map_length, combine_length, logspace_len; lia).
  assert (Ll : last (logk (combine (logspace lo hi N) af)) (0, 0) = (log10 (Rpower 10 hi), nth (N - 1) af 0)).
  { assert (Q : forall (l : list (R * R)) d, last l d = nth (length l - 1) l d). { clear. intros l d. induction l as [|a l IH]; [reflexivity|]. destruct l as [|b l]; [reflexivity|]. change (last (a :: b :: l) d) with (last (b :: l) d). rewrite IH. simpl. rewrite Nat.sub_0_r. reflexivity. }
    rewrite Q, Lk0. unfold logk. rewrite (nth_map_lt _ _ _ (0, 0)) by (rewrite combine_length, logspace_len; lia). rewrite combine_nth by (rewrite logspace_len; auto). cbn [fst snd]. rewrite logspace_last by auto. reflexivity. }
  set (Kk := logk (combine (logspace lo hi N) af)) in *. assert (Ne : Kk <> []) by (intros Q; rewrite Q in Lk0; simpl in Lk0; lia).
  destruct Kk as [|p K] eqn:EK; [congruence|]. unfold interp_jax. change (lift (p :: K)) with ((fst p, Some (snd p)) :: lift K). cbv iota beta. change ((fst p, Some (snd p)) :: lift K) with (lift (p :: K)).
  rewrite (last_lift (p :: K) _ (0, 0)) by auto. rewrite Ll. cbn [fst].
  assert (Hx : log10 (Rpower 10 hi) < lg (Rabs u)) by (apply log10_incr; auto).
  assert (Hp : fst p <= log10 (Rpower 10 hi)).
  { assert (Ep : fst p = log10 (nth 0 (logspace lo hi N) 0)). { replace p with (nth 0 (p :: K) (0, 0)) by reflexivity. rewrite <- EK. unfold Kk, logk. rewrite (nth_map_lt _ _ _ (0, 0)) by (rewrite combine_length, logspace_len; lia). rewrite combine_nth by (rewrite logspace_len; auto). reflexivity. }
    rewrite Ep, logspace_first by auto. apply log10_le; [apply Rpower_pos|]. apply Rle_Rpower; lra. }
  destruct (Rltb_spec (lg (Rabs u)) (fst p)); [lra|]. destruct (Rltb_spec (log10 (Rpower 10 hi)) (lg (Rabs u))); [reflexivity|lra].
Qed.
(** ** mixtures *)
Lemma polyline_mix (c : R) (L : list (R * R * R)) x :
  polyline (map (fun t => (fst (fst t), c * snd (fst t) + (1 - c) * snd t)) L) x = c * polyline (map (fun t => (fst (fst t), snd (fst t))) L) x + (1 - c) * polyline (map (fun t => (fst (fst t), snd t)) L) x.
Proof.
  induction L as [|p L IH]; [simpl; ring|]. destruct L as [|q L]; [simpl; ring|].
  change (polyline (map (fun t => (fst (fst t), c * snd (fst t) + (1 - c) * snd t)) (q :: L)) x + (c * snd (fst p) + (1 - c) * snd p - (c * snd (fst q) + (1 - c) * snd q)) * ((fst (fst q) - Rmax (fst (fst p)) (Rmin x (fst (fst q)))) / (fst (fst q) - fst (fst p))) =
    c * (polyline (map (fun t => (fst (fst t), snd (fst t))) (q :: L)) x + (snd (fst p) - snd (fst q)) * ((fst (fst q) - Rmax (fst (fst p)) (Rmin x (fst (fst q)))) / (fst (fst q) - fst (fst p)))) +
    (1 - c) * (polyline (map (fun t => (fst (fst t), snd t)) (q :: L)) x + (snd p - snd q) * ((fst (fst q) - Rmax (fst (fst p)) (Rmin x (fst (fst q)))) / (fst (fst q) - fst (fst p))))).
  rewrite IH. ring.
Qed.
Lemma curve_mix (c : R) (f1 f2 : R -> R) (l : list R) u :
  curve_of l (map (fun v => c * f1 v + (1 - c) * f2 v) l) u = c * curve_of l (map f1 l) u + (1 - c) * curve_of l (map f2 l) u.
Proof.
  unfold curve_of. set (T := map (fun v => (log10 v, f1 v, f2 v)) (filter (fun v => Rltb v 100) l) ++ [(log10 100, 1, 1)]).
  assert (Q : forall f : R -> R, logk (below (combine l (map f l)) ++ [(100, 1)]) = map (fun v => (log10 v, f v)) (filter (fun v => Rltb v 100) l) ++ [(log10 100, 1)]).
  { intros f. unfold logk. rewrite map_app. f_equal. unfold below. clear. induction l as [|a l IH]; [reflexivity|]. cbn [map combine filter fst]. destruct (Rltb a 100); cbn [map]; rewrite IH; reflexivity. }
  rewrite !Q. pose proof (polyline_mix c T (log10 u)) as E. unfold T in E. rewrite !map_app, !map_map in E. cbn [map fst snd] in E. replace (c * 1 + (1 - c) * 1) with 1 in E by ring. exact E.
Qed.
Lemma spectral_mix kappa q P c s1 s2 rho u : spectral kappa q P (fun x => c * s1 x + (1 - c) * s2 x) rho u = c * spectral kappa q P s1 rho u + (1 - c) * spectral kappa q P s2 rho u.
Proof.
  unfold spectral. 
  set (F := fun s i => nth i P 0 * nth i q 0 ^ 2 * s (nth i q 0 * rho) * exp (- (nth i q 0 * rho / (40 * PI)) ^ 2) * kappa (nth i q 0 * u)).
  change (1 + / (2 * PI) * sumR (map (F (fun x => c * s1 x + (1 - c) * s2 x)) (seq 0 (length q))) = c * (1 + / (2 * PI) * sumR (map (F s1) (seq 0 (length q)))) + (1 - c) * (1 + / (2 * PI) * sumR (map (F s2) (seq 0 (length q))))).
  rewrite (sumR_ext (F (fun x => c * s1 x + (1 - c) * s2 x)) (fun i => c * F s1 i + (1 - c) * F s2 i)) by (intros i _; unfold F; ring).
  rewrite sumR_map_plus, !sumR_map_scal. ring.
Qed.
Lemma big_mix kappa P c s1 s2 rho u : big kappa P (fun x => c * s1 x + (1 - c) * s2 x) rho u = c * big kappa P s1 rho u + (1 - c) * big kappa P s2 rho u.
Proof. unfold big. rewrite <- curve_mix. f_equal. apply map_ext. intros v. apply spectral_mix. Qed.
End Lc.
