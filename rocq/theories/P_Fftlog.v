(** Grid extension, parity, alignment and window of the FFTLog transform. *)
From Coq Require Import Reals List Bool Arith ZArith Lia Lra.
From Coquelicot Require Import Complex.
From Verif Require Import Base_R Base_C Base_List M_Fftlog S_Fftlog.
Import ListNotations.
Local Open Scope R_scope.

(** ** [log_extrap] *)
Lemma log_extrap_shape x nl nh : (2 <= length x)%nat -> exists low high,
  log_extrap x nl nh = Ok (low ++ x ++ high) /\ length low = nl /\ length high = nh.
Proof.
  intros H. unfold log_extrap. cbv zeta. replace (length x <? 2)%nat with false by (symmetry; apply Nat.ltb_ge; lia). rewrite andb_false_r.
  eexists _, _. split; [reflexivity|]. split; rewrite map_length, seq_length; reflexivity.
Qed.
Lemma log_extrap_0 x : log_extrap x 0 0 = Ok x.
Proof. unfold log_extrap. simpl. rewrite app_nil_r. reflexivity. Qed.
Lemma log_extrap_short x nl nh : (length x < 2)%nat -> (0 < nl \/ 0 < nh)%nat -> log_extrap x nl nh = Raise IndexError.
Proof.
  intros H H'. unfold log_extrap. cbv zeta. replace (length x <? 2)%nat with true by (symmetry; apply Nat.ltb_lt; lia).
  replace ((0 <? nl) || (0 <? nh))%nat with true. reflexivity.
  symmetry. apply orb_true_iff. destruct H'; [left|right]; apply Nat.ltb_lt; auto.
Qed.
Lemma log_extrap_low x nl nh k x0 x1 y : nth 0 x None = Some x0 -> nth 1 x None = Some x1 -> 0 < x1 / x0 ->
  log_extrap x nl nh = Ok y -> (k < nl)%nat -> nth k y None = Some (x0 * Rpower (x1 / x0) (- INR (nl - k))).
Proof.
  intros H0 H1 Hr H Hk. assert (Hx0 : x0 <> 0) by (intros ->; unfold Rdiv in Hr; rewrite Rinv_0 in Hr; lra).
  unfold log_extrap in H. cbv zeta in H. destruct (_ && _)%bool; [discriminate|]. apply (f_equal (fun r => match r with Ok l => l | _ => [] end)) in H. cbv beta iota in H.
  subst y. rewrite app_nth1 by (rewrite map_length, seq_length; auto). rewrite (nth_map_lt _ _ k O) by (rewrite seq_length; auto).
  rewrite seq_nth, Nat.add_0_l by auto. rewrite H0, H1. unfold ndiv, nlog, nmap2, nbind. destruct (Reqb_spec x0 0); [contradiction|].
  cbv beta iota. destruct (Rltb_spec 0 (x1 / x0)); [|lra]. simpl. unfold Rpower. do 3 f_equal. ring.
Qed.
Lemma log_extrap_mid x nl nh k y : log_extrap x nl nh = Ok y -> (k < length x)%nat -> nth (nl + k) y None = nth k x None.
Proof.
  intros H Hk. unfold log_extrap in H. cbv zeta in H. destruct (_ && _)%bool; [discriminate|]. apply (f_equal (fun r => match r with Ok l => l | _ => [] end)) in H. cbv beta iota in H.
  subst y. rewrite app_nth2; rewrite map_length, seq_length; [|lia]. rewrite app_nth1 by lia. f_equal. lia.
Qed.
Lemma log_extrap_high x nl nh k xa xb y : nth (length x - 2) x None = Some xa -> nth (length x - 1) x None = Some xb -> 0 < xb / xa ->
  log_extrap x nl nh = Ok y -> (k < nh)%nat -> nth (nl + length x + k) y None = Some (xb * Rpower (xb / xa) (INR (k + 1))).
Proof.
  intros H0 H1 Hr H Hk. assert (Hx0 : xa <> 0) by (intros ->; unfold Rdiv in Hr; rewrite Rinv_0 in Hr; lra).
  unfold log_extrap in H. cbv zeta in H. destruct (_ && _)%bool; [discriminate|]. apply (f_equal (fun r => match r with Ok l => l | _ => [] end)) in H. cbv beta iota in H.
  subst y. rewrite app_nth2; rewrite map_length, seq_length; [|lia]. rewrite app_nth2 by lia.
  replace (nl + length x + k - nl - length x)%nat with k by lia.
  rewrite (nth_map_lt _ _ k O) by (rewrite seq_length; auto).
  rewrite seq_nth, Nat.add_0_l by auto. rewrite H0, H1. unfold ndiv, nlog, nmap2, nbind. destruct (Reqb_spec xa 0); [contradiction|].
  cbv beta iota. destruct (Rltb_spec 0 (xb / xa)); [|lra]. simpl. unfold Rpower. do 3 f_equal. ring.
Qed.
Lemma log_extrap_length x nl nh y : log_extrap x nl nh = Ok y -> length y = (nl + length x + nh)%nat.
Proof.
  intros H. unfold log_extrap in H. cbv zeta in H. destruct (_ && _)%bool; [discriminate|]. apply (f_equal (fun r => match r with Ok l => l | _ => [] end)) in H. cbv beta iota in H.
  subst y. rewrite !app_length, !map_length, !seq_length. lia.
Qed.

Lemma geom_length a r n : length (geom a r n) = n.
Proof. unfold geom. rewrite map_length, seq_length. reflexivity. Qed.
Lemma geom_nth a r n i : (i < n)%nat -> nth i (geom a r n) None = Some (a * Rpower r (INR i)).
Proof. intros H. unfold geom. rewrite (nth_map_lt _ _ i O) by (rewrite seq_length; auto). rewrite seq_nth by auto. reflexivity. Qed.
Lemma Rpower_pos a b : 0 < Rpower a b. Proof. apply exp_pos. Qed.
Lemma Rpower_ratio a r i j : a <> 0 -> 0 < r -> (a * Rpower r i) / (a * Rpower r j) = Rpower r (i - j).
Proof.
  intros Ha Hr. unfold Rminus. rewrite Rpower_plus, Rpower_Ropp. field. split; auto. pose proof (Rpower_pos r j). lra.
Qed.
Lemma geom_extrap a r n nl nh : a <> 0 -> 0 < r -> (2 <= n)%nat ->
  log_extrap (geom a r n) nl nh = Ok (geom (a * Rpower r (- INR nl)) r (nl + n + nh)).
Proof.
  intros Ha Hr Hn. destruct (log_extrap_shape (geom a r n) nl nh) as (low & high & E & El & Eh); [rewrite geom_length; auto|].
  set (y := low ++ geom a r n ++ high) in *. rewrite E. f_equal.
  assert (Hlen : length y = (nl + n + nh)%nat) by (rewrite (log_extrap_length _ _ _ _ E), geom_length; reflexivity).
  apply (list_eq_nth None); [rewrite Hlen, geom_length; reflexivity|]. intros i Hi. rewrite Hlen in Hi. rewrite geom_nth by auto.
  assert (R1 : forall i j, 0 < a * Rpower r i / (a * Rpower r j)) by (intros; rewrite Rpower_ratio by auto; apply Rpower_pos).
  assert (G : forall k, (k < n)%nat -> nth k (geom a r n) None = Some (a * Rpower r (INR k))) by (intros; apply geom_nth; auto).
  rewrite Rmult_assoc, <- Rpower_plus.
  destruct (Nat.lt_ge_cases i nl) as [H1|H1].
  - rewrite (log_extrap_low _ nl nh i (a * Rpower r (INR 0)) (a * Rpower r (INR 1)) y (G 0%nat ltac:(lia)) (G 1%nat ltac:(lia)) (R1 _ _) E H1).
    rewrite Rpower_ratio by auto. replace (INR 1 - INR 0) with 1 by (simpl; lra). rewrite Rpower_1 by auto. rewrite minus_INR by lia.
    rewrite Rmult_assoc, <- Rpower_plus. do 3 f_equal. simpl; lra.
  - destruct (Nat.lt_ge_cases i (nl + n)) as [H2|H2].
    + replace i with (nl + (i - nl))%nat at 1 by lia. rewrite (log_extrap_mid _ nl nh _ y E) by (rewrite geom_length; lia).
      rewrite geom_nth by lia. do 3 f_equal. rewrite minus_INR by lia. lra.
    + assert (Ga : nth (length (geom a r n) - 2) (geom a r n) None = Some (a * Rpower r (INR (n - 2)))) by (rewrite geom_length; apply G; lia).
      assert (Gb : nth (length (geom a r n) - 1) (geom a r n) None = Some (a * Rpower r (INR (n - 1)))) by (rewrite geom_length; apply G; lia).
      pose proof (log_extrap_high _ nl nh (i - nl - n) _ _ y Ga Gb (R1 _ _) E ltac:(lia)) as HH. rewrite geom_length in HH.
      replace (nl + n + (i - nl - n))%nat with i in HH by lia. rewrite HH. rewrite Rpower_ratio by auto.
      replace (INR (n - 1) - INR (n - 2)) with 1 by (rewrite !minus_INR by lia; simpl; lra). rewrite Rpower_1 by auto.
      rewrite Rmult_assoc, <- Rpower_plus. do 3 f_equal. rewrite plus_INR, !minus_INR by lia. simpl. lra.
Qed.

(** ** the constructor *)
Lemma init_ok x fx nl nh npad : (2 <= length x)%nat -> length fx = length x ->
  exists s x1 f1 px1 px2 low high flow fhigh, fftlog_init x fx nl nh npad = Ok s /\
  x1 = px1 ++ (low ++ x ++ high) ++ px2 /\ length px1 = npad /\ length px2 = npad /\ length low = nl /\ length high = nh /\
  f1 = repeat (Some 0) npad ++ (flow ++ fx ++ fhigh) ++ repeat (Some 0) npad /\ length flow = nl /\ length fhigh = nh /\
  log_extrap fx nl nh = Ok (flow ++ fx ++ fhigh) /\ bind (log_extrap x nl nh) (fun l => log_extrap l npad npad) = Ok x1 /\
  let T := (length x + nl + nh + 2 * npad)%nat in
  f_dlnx s = nlog (ndiv (nth 1 x None) (nth 0 x None)) /\ f_low s = (nl + npad)%nat /\
  if Nat.odd T then f_x s = removelast x1 /\ f_fx s = removelast f1 /\ f_N s = (T - 1)%nat /\ f_high s = (if (npad =? 0)%nat then nh else nh + npad - 1)%nat
  else f_x s = x1 /\ f_fx s = f1 /\ f_N s = T /\ f_high s = (nh + npad)%nat.
Proof.
  intros Hx Hf. destruct (log_extrap_shape x nl nh Hx) as (low & high & E & El & Eh).
  destruct (log_extrap_shape fx nl nh) as (flow & fhigh & Ef & Efl & Efh); [lia|].
  unfold fftlog_init. cbv zeta. replace (length x <? 2)%nat with false by (symmetry; apply Nat.ltb_ge; lia).
  rewrite E, Ef. cbn [bind]. rewrite Hf, Nat.eqb_refl. cbn [negb].
  assert (L1 : length (low ++ x ++ high) = (nl + length x + nh)%nat) by (rewrite !app_length; lia).
  destruct (Nat.eqb_spec npad 0) as [->|Hp].
  - cbn [bind]. rewrite L1. replace (nl + length x + nh)%nat with (length x + nl + nh + 2 * 0)%nat by lia.
    rewrite !Nat.add_0_r. change (2 * 0)%nat with 0%nat. rewrite ?Nat.add_0_r. destruct (Nat.odd (length x + nl + nh)) eqn:Eo.
    + eexists. exists (low ++ x ++ high), (flow ++ fx ++ fhigh), [], [], low, high, flow, fhigh. split; [reflexivity|]. cbn [repeat app].
      rewrite !app_nil_r. cbn [bind]. rewrite log_extrap_0. repeat (split; auto).
    + eexists. exists (low ++ x ++ high), (flow ++ fx ++ fhigh), [], [], low, high, flow, fhigh. split; [reflexivity|]. cbn [repeat app].
      rewrite !app_nil_r. cbn [bind]. rewrite log_extrap_0. repeat (split; auto).
  - destruct (log_extrap_shape (low ++ x ++ high) npad npad) as (px1 & px2 & Ep & Ep1 & Ep2); [lia|]. rewrite Ep. cbn [bind]. rewrite L1.
    replace (nl + length x + nh + 2 * npad)%nat with (length x + nl + nh + 2 * npad)%nat by lia.
    destruct (Nat.odd (length x + nl + nh + 2 * npad)) eqn:Eo;
      (eexists; exists (px1 ++ (low ++ x ++ high) ++ px2), (repeat (Some 0) npad ++ (flow ++ fx ++ fhigh) ++ repeat (Some 0) npad), px1, px2, low, high, flow, fhigh;
       split; [reflexivity|]; repeat (split; auto)).
Qed.
Lemma nth_removelast {A} (l : list A) i d : (i < length l - 1)%nat -> nth i (removelast l) d = nth i l d.
Proof.
  revert i; induction l as [|a [|b l] IH]; intros i H; [simpl in H; lia|simpl in H; lia|].
  change (removelast (a :: b :: l)) with (a :: removelast (b :: l)). destruct i; simpl nth; [reflexivity|].
  rewrite IH by (simpl in *; lia). reflexivity.
Qed.
Lemma removelast_length {A} (l : list A) : length (removelast l) = (length l - 1)%nat.
Proof. induction l as [|a [|b l] IH]; auto. change (removelast (a :: b :: l)) with (a :: removelast (b :: l)). simpl in *. lia. Qed.
Lemma init_lengths x fx nl nh npad s : (2 <= length x)%nat -> length fx = length x -> fftlog_init x fx nl nh npad = Ok s ->
  Nat.even (f_N s) = true /\ length (f_x s) = f_N s /\ length (f_fx s) = f_N s /\
  (f_N s = length x + nl + nh + 2 * npad \/ Nat.odd (length x + nl + nh + 2 * npad) = true /\ f_N s = length x + nl + nh + 2 * npad - 1)%nat.
Proof.
  intros Hx Hf Hs. destruct (init_ok x fx nl nh npad Hx Hf) as (s' & x1 & f1 & px1 & px2 & low & high & flow & fhigh & E & Ex & E1 & E2 & E3 & E4 & Ef & E5 & E6 & _ & _ & _ & _ & HT).
  rewrite E in Hs. apply (f_equal (fun r => match r with Ok a => a | _ => s end)) in Hs. cbv beta iota in Hs. subst s'.
  assert (L1 : length x1 = (length x + nl + nh + 2 * npad)%nat) by (rewrite Ex, !app_length; lia).
  assert (L2 : length f1 = (length x + nl + nh + 2 * npad)%nat) by (rewrite Ef, !app_length, !repeat_length; lia).
  destruct (Nat.odd (length x + nl + nh + 2 * npad)) eqn:Eo.
  - destruct HT as (A & B & C & D). rewrite A, B, C, !removelast_length, L1, L2. split; [|auto].
    apply Nat.odd_spec in Eo. destruct Eo as [k Ek]. apply Nat.even_spec. exists k. lia.
  - destruct HT as (A & B & C & D). rewrite A, B, C. split; [|auto]. rewrite <- Nat.negb_odd, Eo. reflexivity.
Qed.
(** position of the original samples *)
Lemma init_positions x fx nl nh npad s i : (2 <= length x)%nat -> length fx = length x -> fftlog_init x fx nl nh npad = Ok s ->
  (i < length x)%nat -> (npad + nl + i < f_N s)%nat -> nth (npad + nl + i) (f_x s) None = nth i x None /\ nth (npad + nl + i) (f_fx s) None = nth i fx None.
Proof.
  intros Hx Hf Hs Hi Hn. destruct (init_ok x fx nl nh npad Hx Hf) as (s' & x1 & f1 & px1 & px2 & low & high & flow & fhigh & E & Ex & E1 & E2 & E3 & E4 & Ef & E5 & E6 & _ & _ & _ & _ & HT).
  rewrite E in Hs. apply (f_equal (fun r => match r with Ok a => a | _ => s end)) in Hs. cbv beta iota in Hs. subst s'.
  assert (N1 : nth (npad + nl + i) x1 None = nth i x None).
  { rewrite Ex. rewrite app_nth2 by lia. rewrite app_nth1 by (rewrite !app_length; lia). rewrite app_nth2 by lia. rewrite app_nth1 by lia. f_equal. lia. }
  assert (N2 : nth (npad + nl + i) f1 None = nth i fx None).
  { rewrite Ef. rewrite app_nth2; rewrite repeat_length; [|lia]. rewrite app_nth1 by (rewrite !app_length; lia). rewrite app_nth2 by lia. rewrite app_nth1 by lia. f_equal. lia. }
  assert (L1 : length x1 = (length x + nl + nh + 2 * npad)%nat) by (rewrite Ex, !app_length; lia).
  assert (L2 : length f1 = (length x + nl + nh + 2 * npad)%nat) by (rewrite Ef, !app_length, !repeat_length; lia).
  destruct (Nat.odd (length x + nl + nh + 2 * npad)) eqn:Eo.
  - destruct HT as (A & B & C & D). rewrite A, B, !nth_removelast by lia. auto.
  - destruct HT as (A & B & C & D). rewrite A, B. auto.
Qed.
Lemma init_slice x fx nl nh npad s : (2 <= length x)%nat -> length fx = length x -> fftlog_init x fx nl nh npad = Ok s ->
  f_low s = (nl + npad)%nat /\
  ((Nat.even (length x + nl + nh) = true \/ (0 < npad)%nat) -> (f_N s - f_low s - f_high s = length x /\ f_high s + (nl + npad) + length x = f_N s)%nat) /\
  (Nat.odd (length x + nl + nh) = true -> npad = 0%nat -> (f_N s - f_low s - f_high s = length x - 1 /\ f_high s = nh /\ f_N s = nl + length x + nh - 1)%nat).
Proof.
  intros Hx Hf Hs. destruct (init_ok x fx nl nh npad Hx Hf) as (s' & x1 & f1 & px1 & px2 & low & high & flow & fhigh & E & Ex & E1 & E2 & E3 & E4 & Ef & E5 & E6 & _ & _ & _ & Hl & HT).
  rewrite E in Hs. apply (f_equal (fun r => match r with Ok a => a | _ => s end)) in Hs. cbv beta iota in Hs. subst s'.
  split; [auto|].
  assert (Eodd : Nat.odd (length x + nl + nh + 2 * npad) = Nat.odd (length x + nl + nh)).
  { replace (length x + nl + nh + 2 * npad)%nat with (length x + nl + nh + 2 * npad)%nat by lia. apply Nat.odd_add_mul_2. }
  rewrite Eodd in HT. rewrite <- Nat.negb_odd. destruct (Nat.odd (length x + nl + nh)) eqn:Eo; simpl negb.
  - destruct HT as (A & B & C & D). split.
    + intros [H|H]; [discriminate|]. rewrite C, D, Hl. destruct (Nat.eqb_spec npad 0); lia.
    + intros _ ->. rewrite C, D, Hl. simpl. lia.
  - destruct HT as (A & B & C & D). split; [|discriminate]. intros _. rewrite C, D, Hl. lia.
Qed.

(** ** outputs *)
Lemma y_array_length ell s : length (y_array ell s) = length (f_x s).
Proof. unfold y_array. rewrite map_length, rev_length. reflexivity. Qed.
Lemma y_array_nth ell s j : (j < length (f_x s))%nat -> nth j (y_array ell s) None = ndiv (Some (ell + 1)) (nth (length (f_x s) - 1 - j) (f_x s) None).
Proof.
  intros H. unfold y_array. rewrite (nth_map_lt _ _ j None) by (rewrite rev_length; auto). rewrite rev_nth by auto. do 2 f_equal. lia.
Qed.
Lemma Fy_length g nu width ell s : length (Fy_array g nu width ell s) = f_N s.
Proof.
  unfold Fy_array. destruct (all_num _); [|apply repeat_length]. destruct (f_dlnx s); [|apply repeat_length].
  cbv zeta. match goal with |- context [nmul ?a ?b] => destruct (nmul a b) end; [|apply repeat_length]. destruct (_ && _)%bool; [rewrite map_length, seq_length|rewrite repeat_length]; auto.
Qed.
Lemma slice_length {A} s (l : list A) : length l = f_N s -> (f_low s + f_high s <= f_N s)%nat -> length (slice s l) = (f_N s - f_low s - f_high s)%nat.
Proof. intros H H'. unfold slice. rewrite firstn_length, skipn_length, H. lia. Qed.
Lemma slice_nth {A} s (l : list A) d i : (i < f_N s - f_low s - f_high s)%nat -> nth i (slice s l) d = nth (f_high s + i) l d.
Proof. intros H. unfold slice. rewrite nth_firstn_lt by auto. apply nth_skipn_add. Qed.

(** one output per sample, aligned by reversal *)
Lemma outputs_aligned g nu width ell x fx nl nh npad s y F : (2 <= length x)%nat -> length fx = length x ->
  Nat.even (length x + nl + nh) = true \/ (0 < npad)%nat ->
  fftlog_init x fx nl nh npad = Ok s -> fftlog g nu width ell s = (y, F) ->
  length y = length x /\ length F = length x /\
  forall i, (i < length x)%nat -> nth i y None = ndiv (Some (ell + 1)) (nth (length x - 1 - i) x None).
Proof.
  intros Hx Hf Hc Hs Hy. destruct (init_slice _ _ _ _ _ _ Hx Hf Hs) as (A & B & _). destruct (B Hc) as [B1 B2].
  destruct (init_lengths _ _ _ _ _ _ Hx Hf Hs) as (_ & L1 & L2 & LT).
  unfold fftlog in Hy. injection Hy as <- <-.
  rewrite !slice_length by (rewrite ?y_array_length, ?Fy_length; lia). split; [lia|]. split; [lia|]. intros i Hi.
  rewrite slice_nth by lia. rewrite y_array_nth by lia. f_equal.
  replace (length (f_x s) - 1 - (f_high s + i))%nat with (npad + nl + (length x - 1 - i))%nat by lia.
  apply (init_positions x fx nl nh npad s); auto; lia.
Qed.
(** without padding an odd total loses the largest sample *)
Lemma outputs_lost g nu width ell x fx nl nh s y F : (2 <= length x)%nat -> length fx = length x ->
  Nat.odd (length x + nl + nh) = true -> fftlog_init x fx nl nh 0 = Ok s -> fftlog g nu width ell s = (y, F) ->
  length y = (length x - 1)%nat /\ length F = (length x - 1)%nat /\
  forall i, (i < length x - 1)%nat -> nth i y None = ndiv (Some (ell + 1)) (nth (length x - 2 - i) x None).
Proof.
  intros Hx Hf Hc Hs Hy. destruct (init_slice _ _ _ _ _ _ Hx Hf Hs) as (A & _ & B). destruct (B Hc eq_refl) as (B1 & B2 & B3).
  destruct (init_lengths _ _ _ _ _ _ Hx Hf Hs) as (_ & L1 & L2 & LT).
  unfold fftlog in Hy. injection Hy as <- <-.
  rewrite !slice_length by (rewrite ?y_array_length, ?Fy_length; lia). split; [lia|]. split; [lia|]. intros i Hi.
  rewrite slice_nth by lia. rewrite y_array_nth by lia. f_equal.
  replace (length (f_x s) - 1 - (f_high s + i))%nat with (0 + nl + (length x - 2 - i))%nat by lia.
  apply (init_positions x fx nl nh 0 s); auto; lia.
Qed.

(** ** geometric grids stay geometric *)
Lemma removelast_map {A B} (f : A -> B) l : removelast (map f l) = map f (removelast l).
Proof. induction l as [|a [|b l] IH]; auto. simpl in *. rewrite IH. reflexivity. Qed.
Lemma removelast_geom a r n : (0 < n)%nat -> removelast (geom a r n) = geom a r (n - 1).
Proof.
  intros H. unfold geom. rewrite removelast_map. f_equal. destruct n; [lia|]. rewrite seq_S, removelast_app by discriminate. simpl. rewrite app_nil_r. f_equal. lia.
Qed.
Lemma init_geom x0 r n fx nl nh npad s : x0 <> 0 -> 0 < r -> (2 <= n)%nat -> length fx = n -> fftlog_init (geom x0 r n) fx nl nh npad = Ok s ->
  f_x s = geom (x0 * Rpower r (- INR (nl + npad))) r (f_N s) /\ f_dlnx s = Some (ln r).
Proof.
  intros Ha Hr Hn Hf Hs. destruct (init_ok (geom x0 r n) fx nl nh npad) as (s' & x1 & f1 & px1 & px2 & low & high & flow & fhigh & E & Ex & E1 & E2 & E3 & E4 & Ef & E5 & E6 & _ & EX & Ed & _ & HT);
    [rewrite geom_length; auto|rewrite geom_length; auto|].
  rewrite E in Hs. apply (f_equal (fun r => match r with Ok a => a | _ => s end)) in Hs. cbv beta iota in Hs. subst s'.
  rewrite geom_extrap in EX by auto. cbn [bind] in EX. pose proof (Rpower_pos r (- INR nl)).
  rewrite geom_extrap in EX; [|apply Rmult_integral_contrapositive_currified; lra|auto|lia]. 
  apply (f_equal (fun r => match r with Ok a => a | _ => [] end)) in EX. cbv beta iota in EX.
  rewrite Rmult_assoc, <- Rpower_plus in EX. replace (- INR nl + - INR npad) with (- INR (nl + npad)) in EX by (rewrite plus_INR; ring).
  split.
  - rewrite geom_length in HT. destruct (Nat.odd (n + nl + nh + 2 * npad)).
    + destruct HT as (A & _ & C & _). rewrite A, C, <- EX, removelast_geom by lia. f_equal. lia.
    + destruct HT as (A & _ & C & _). rewrite A, C, <- EX. f_equal. lia.
  - rewrite Ed, !geom_nth by lia. simpl (INR 0). simpl (INR 1). rewrite Rpower_O, Rpower_1, Rmult_1_r by auto. unfold ndiv, nlog, nmap2, nbind.
    destruct (Reqb_spec x0 0); [contradiction|]. replace (x0 * r / x0) with r by (field; auto). destruct (Rltb_spec 0 r); [reflexivity|lra].
Qed.
