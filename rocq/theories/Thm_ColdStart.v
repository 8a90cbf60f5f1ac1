(** The root finder from its default start: property C78. *)
From Coq Require Import Reals List Bool Arith ZArith Lia Lra Permutation.
From Coquelicot Require Import Complex.
From Verif Require Import Base_R Base_List Base_C M_Utils M_Assembly M_Coeffs M_PolySolver M_PointSource S_Poly S_PointSource P_Lens P_Poly P_PolyRoots P_PointSource P_Images P_Single P_Symmetry P_PolySolver P_Critical P_MagJump P_WarmStart Thm_WarmStart P_ColdStart.
Import ListNotations.
Local Open Scope R_scope.

(** the claim: without a guess, every one of the roots [rs], which are at least [d] apart, is met by an output that is closer to it than half of [d],
    and so closer than to any other root *)
Definition default_start_finds (cs rs : list C) (d tol : R) (max_iter : nat) : Prop :=
  exists out, poly_roots_EA cs None tol max_iter = Ok out /\
  forall i, (i < length rs)%nat -> exists z, In (Some z) out /\ Cmod (z - nth i rs (RtoC 0))%C < d / 2.

(** for real coefficients the outputs are mirror images of each other, output [k] of output [n - k]; output [0] is real *)
Theorem C78_mirror : forall cs tol max_iter, (2 <= length cs)%nat -> (forall c, In c cs -> Im c = 0) ->
  exists out, poly_roots_EA cs None tol max_iter = Ok out /\ length out = (length cs - 1)%nat /\
  (forall z, nth 0 out None = Some z -> Im z = 0) /\
  forall k, (0 < k < length out)%nat -> nth (length out - k) out None = option_map Cconj (nth k out None).
Proof.
  intros cs tol m L Hr. eexists. split. { unfold poly_roots_EA. destruct (Nat.ltb_spec (length cs - 1) 1); [lia|reflexivity]. }
  rewrite from_length, initial_circle_length. split; auto. split.
  - intros z E. pose proof (cold_mirrored cs tol m 0 Hr ltac:(lia)) as M. cbn [mirror] in M. rewrite E in M. cbn [option_map] in M. injection M as M. apply (f_equal snd) in M. unfold Im. destruct z as (x & y). cbn in *. lra.
  - intros k Hk. pose proof (cold_mirrored cs tol m k Hr ltac:(lia)) as M. destruct k as [|k]; [lia|]. exact M.
Qed.
Print Assumptions C78_mirror.

Lemma choose_list {A} (P : nat -> A -> Prop) (a : A) n : (forall j, (j < n)%nat -> exists i, P j i) -> exists l, length l = n /\ forall j, (j < n)%nat -> P j (nth j l a).
Proof.
  induction n as [|n IH]; intros H; [exists []; split; auto; intros; lia|]. destruct IH as (l & Hl & HP). { intros j Hj. apply H. lia. }
  destruct (H n ltac:(lia)) as (x & Hx). exists (l ++ [x]). split; [rewrite app_length; cbn; lia|]. intros j Hj. destruct (Nat.eq_dec j n) as [->|N].
  - rewrite app_nth2 by lia. rewrite Hl, Nat.sub_diag. exact Hx.
  - rewrite app_nth1 by lia. apply HP. lia.
Qed.
Lemma conj_root cs rs r : (forall c, In c cs -> Im c = 0) -> hd (RtoC 0) cs <> RtoC 0 -> splits cs rs -> In r rs -> In (Cconj r) rs.
Proof.
  intros Hr H0 S I. apply (splits_root cs); auto. rewrite <- (real_map cs Hr), peval_conj. apply (splits_root cs rs) in I; auto. rewrite I. apply Cconj_RtoC.
Qed.

Lemma near_two d x r r' : Cmod (x - r)%C < d / 2 -> Cmod (x - r')%C < d / 2 -> Cmod (r - r')%C < d.
Proof.
  intros A B. pose proof (Cmod_triangle (x - r')%C (- (x - r))%C) as T. replace (x - r' + - (x - r))%C with (r - r')%C in T by ring. rewrite Cmod_opp in T. lra.
Qed.
(** what success would mean: as many real roots as there are points of the circle on the real axis *)
Lemma found_matching cs rs d tol m : (2 <= length cs)%nat -> (forall c, In c cs -> Im c = 0) -> hd (RtoC 0) cs <> RtoC 0 -> splits cs rs -> 0 < d -> separated d rs ->
  default_start_finds cs rs d tol m -> let n := length rs in
  exists l, length l = n /\ (forall j, (j < n)%nat -> (nth j l O < n)%nat) /\ (forall j j', (j < n)%nat -> (j' < n)%nat -> nth j l O = nth j' l O -> j = j') /\
    (forall i, (i < n)%nat -> exists j, (j < n)%nat /\ nth j l O = i) /\
    (forall j, (j < n)%nat -> Im (nth j rs (RtoC 0)) = 0 <-> mirror n (nth j l O) = nth j l O).
Proof.
  intros L Hr H0 S Hd Hs (out & E & F) n. assert (Ln : n = (length cs - 1)%nat) by (unfold n; rewrite (splits_length cs rs H0 S); lia).
  assert (Lo : length out = n). { unfold poly_roots_EA in E. destruct (Nat.ltb_spec (length cs - 1) 1); [lia|]. injection E as <-. now rewrite from_length, initial_circle_length. }
  assert (M : forall i, (i < n)%nat -> nth (mirror n i) out None = option_map Cconj (nth i out None)).
  { intros i Hi. unfold poly_roots_EA in E. destruct (Nat.ltb_spec (length cs - 1) 1); [lia|]. injection E as <-. rewrite Ln in *. now apply cold_mirrored. }
  clear E. set (P := fun j i : nat => (i < n)%nat /\ exists z, nth i out None = Some z /\ Cmod (z - nth j rs (RtoC 0))%C < d / 2).
  assert (G : forall j, (j < n)%nat -> exists i, P j i).
  { intros j Hj. destruct (F j Hj) as (z & I & Hz). apply (In_nth _ _ None) in I. destruct I as (i & Hi & Ei). exists i. split; [rewrite <- Lo; exact Hi|]. exists z. auto. }
  destruct (choose_list P O n G) as (l & Hl & HP). unfold P in HP. clear P G. exists l.
  assert (Inj : forall j j', (j < n)%nat -> (j' < n)%nat -> nth j l O = nth j' l O -> j = j').
  { intros j j' Hj Hj' Ej. destruct (HP j Hj) as (_ & z & Ez & Hz). destruct (HP j' Hj') as (_ & z' & Ez' & Hz'). rewrite Ej, Ez' in Ez. injection Ez as ->.
    destruct (Nat.eq_dec j j') as [|N]; auto. pose proof (Hs j j' Hj Hj' N). pose proof (near_two d z _ _ Hz Hz'). lra. }
  assert (Sur : forall i, (i < n)%nat -> exists j, (j < n)%nat /\ nth j l O = i).
  { intros i Hi. assert (ND : NoDup l) by (apply (NoDup_nth l O); rewrite Hl; intros; now apply Inj).
    assert (Inc : incl l (seq 0 n)). { intros x Hx. apply (In_nth _ _ O) in Hx. destruct Hx as (j & Hj & <-). apply in_seq. rewrite Hl in Hj. destruct (HP j Hj) as (B1 & _). lia. }
    assert (Inc' : incl (seq 0 n) l) by (apply NoDup_length_incl; auto; rewrite seq_length; lia).
    assert (I : In i l) by (apply Inc', in_seq; lia). apply (In_nth _ _ O) in I. destruct I as (j & Hj & Ej). exists j. split; [lia|auto]. }
  repeat split; auto.
  - intros j Hj. apply (HP j Hj).
  - intros R0. destruct (HP j H) as (Hi & z & Ez & Hz). set (i := nth j l O) in *. destruct (Sur (mirror n i) (mirror_lt n i Hi)) as (j' & Hj' & Ej').
    destruct (HP j' Hj') as (_ & z' & Ez' & Hz'). rewrite Ej', M, Ez in Ez' by auto. cbn [option_map] in Ez'. injection Ez' as <-.
    assert (Hz2 : Cmod (Cconj z - nth j rs (RtoC 0))%C < d / 2).
    { replace (nth j rs (RtoC 0)) with (Cconj (nth j rs (RtoC 0))); [rewrite <- Cconj_minus, Cmod_conj; auto|]. apply Ceq; [reflexivity|]. unfold Cconj, Im in *. cbn. rewrite R0. ring. }
    assert (Q : j' = j); [|subst j'; symmetry; exact Ej']. destruct (Nat.eq_dec j' j) as [|N]; auto. pose proof (Hs j' j Hj' H N). pose proof (near_two d _ _ _ Hz' Hz2). lra.
  - intros Fx. destruct (HP j H) as (Hi & z & Ez & Hz). set (i := nth j l O) in *. pose proof (M i Hi) as Mi. rewrite Fx, Ez in Mi. cbn [option_map] in Mi. injection Mi as Mi.
    assert (I : In (Cconj (nth j rs (RtoC 0))) rs) by (apply (conj_root cs); auto; now apply nth_In). apply (In_nth _ _ (RtoC 0)) in I. destruct I as (j' & Hj' & Ej').
    assert (Hz' : Cmod (z - nth j' rs (RtoC 0))%C < d / 2) by (rewrite Ej', Mi, <- Cconj_minus, Cmod_conj; auto).
    assert (j' = j). { destruct (Nat.eq_dec j' j) as [|N]; auto. pose proof (Hs j' j Hj' H N). pose proof (near_two d _ _ _ Hz' Hz). lra. }
    subst j'. apply (f_equal snd) in Ej'. unfold Im. destruct (nth j rs (RtoC 0)) as (x & y). cbn in *. lra.
Qed.
(** a real polynomial of odd degree is solved from the default start only if exactly one of its roots is real *)
Theorem C78_odd_degree_refuted : forall cs rs d tol max_iter, (2 <= length cs)%nat -> (forall c, In c cs -> Im c = 0) -> hd (RtoC 0) cs <> RtoC 0 ->
  splits cs rs -> 0 < d -> separated d rs -> Nat.Odd (length rs) ->
  (exists i j, (i < j < length rs)%nat /\ Im (nth i rs (RtoC 0)) = 0 /\ Im (nth j rs (RtoC 0)) = 0) ->
  ~ default_start_finds cs rs d tol max_iter.
Proof.
  intros cs rs d tol m L Hr H0 S Hd Hs (h & Hn) (i & j & Hij & Ri & Rj) F. destruct (found_matching cs rs d tol m L Hr H0 S Hd Hs F) as (l & Hl & Bd & Inj & _ & Re).
  assert (Z : forall k, (k < length rs)%nat -> Im (nth k rs (RtoC 0)) = 0 -> nth k l O = O).
  { intros k Hk R0. apply Re in R0; auto. specialize (Bd k Hk). destruct (nth k l O) as [|x]; auto. cbn [mirror] in R0. lia. }
  assert (i = j) by (apply Inj; try lia; rewrite !Z; auto; lia). lia.
Qed.
Print Assumptions C78_odd_degree_refuted.
(** a real polynomial of even degree, only if exactly two are *)
Theorem C78_even_degree_refuted : forall cs rs d tol max_iter, (2 <= length cs)%nat -> (forall c, In c cs -> Im c = 0) -> hd (RtoC 0) cs <> RtoC 0 ->
  splits cs rs -> 0 < d -> separated d rs -> Nat.Even (length rs) ->
  (exists i j k, (i < j < k)%nat /\ (k < length rs)%nat /\ Im (nth i rs (RtoC 0)) = 0 /\ Im (nth j rs (RtoC 0)) = 0 /\ Im (nth k rs (RtoC 0)) = 0) \/ (forall i, (i < length rs)%nat -> Im (nth i rs (RtoC 0)) <> 0) ->
  ~ default_start_finds cs rs d tol max_iter.
Proof.
  intros cs rs d tol m L Hr H0 S Hd Hs (h & Hn) C F. destruct (found_matching cs rs d tol m L Hr H0 S Hd Hs F) as (l & Hl & Bd & Inj & Sur & Re).
  assert (Z : forall k, (k < length rs)%nat -> Im (nth k rs (RtoC 0)) = 0 -> nth k l O = O \/ nth k l O = h).
  { intros k Hk R0. apply Re in R0; auto. specialize (Bd k Hk). destruct (nth k l O) as [|x]; auto. cbn [mirror] in R0. right. lia. }
  destruct C as [(i & j & k & Hij & Hk & Ri & Rj & Rk)|N].
  - assert (Q : forall x y, (x < length rs)%nat -> (y < length rs)%nat -> x <> y -> nth x l O <> nth y l O) by (intros x y Hx Hy Nxy Exy; apply Nxy; now apply Inj).
    pose proof (Q i j ltac:(lia) ltac:(lia) ltac:(lia)). pose proof (Q i k ltac:(lia) ltac:(lia) ltac:(lia)). pose proof (Q j k ltac:(lia) ltac:(lia) ltac:(lia)).
    destruct (Z i ltac:(lia) Ri), (Z j ltac:(lia) Rj), (Z k ltac:(lia) Rk); congruence.
  - assert (0 < length rs)%nat by (rewrite (splits_length cs rs H0 S); lia). destruct (Sur 0%nat ltac:(auto)) as (j & Hj & Ej). apply (N j Hj). apply Re; auto. rewrite Ej. reflexivity.
Qed.
Print Assumptions C78_even_degree_refuted.

(** ** source on the line through two lenses: three real images, so never found from the default start *)
Definition axis_cubic (w a e1 x : R) : R := (x - w) * (x - a) * (x + a) - e1 * (x + a) - (1 - e1) * (x - a).
Lemma axis_cubic_cont w a e1 : continuity (axis_cubic w a e1).
Proof. unfold axis_cubic. reg. Qed.
Lemma axis_images w a e1 : 0 < a -> 0 < e1 < 1 -> exists x1 x2 x3, x1 < - a < x2 /\ x2 < a < x3 /\ axis_cubic w a e1 x1 = 0 /\ axis_cubic w a e1 x2 = 0 /\ axis_cubic w a e1 x3 = 0.
Proof.
  intros Ha He. set (f := axis_cubic w a e1). pose proof (axis_cubic_cont w a e1) as Cf. fold f in Cf.
  assert (F1 : f a < 0) by (unfold f, axis_cubic; nra). assert (F2 : 0 < f (- a)) by (unfold f, axis_cubic; nra).
  set (M := Rabs w + a + 2). assert (W : - M + a + 2 <= w <= M - a - 2) by (unfold M; pose proof (Rabs_def2 w (Rabs w + 1) ltac:(lra)); unfold Rabs; destruct (Rcase_abs w); lra).
  assert (Ma : a + 2 <= M) by (unfold M; pose proof (Rabs_pos w); lra).
  assert (F3 : 0 < f M).
  { assert (P : 4 <= (M - w) * (M - a)) by nra. assert (Q : 4 * (M + a) <= (M - w) * (M - a) * (M + a)) by (apply Rmult_le_compat_r; lra). unfold f, axis_cubic. assert (e1 * (M + a) <= M + a) by nra. assert ((1 - e1) * (M - a) <= M + a) by nra. lra. }
  assert (F4 : f (- M) < 0).
  { assert (P : 4 <= (M + w) * (M - a)) by nra. assert (Q : 4 * (M + a) <= (M + w) * (M - a) * (M + a)) by (apply Rmult_le_compat_r; lra). unfold f, axis_cubic. assert (e1 * (M - a) <= M + a) by nra. assert ((1 - e1) * (M + a) <= M + a) by nra.
    replace ((- M - w) * (- M - a) * (- M + a)) with (- ((M + w) * (M - a) * (M + a))) by ring. lra. }
  destruct (IVT f (- M) (- a) Cf ltac:(lra) F4 F2) as (x1 & B1 & E1). destruct (IVT (- f)%F (- a) a (continuity_opp f Cf) ltac:(lra) ltac:(unfold opp_fct; lra) ltac:(unfold opp_fct; lra)) as (x2 & B2 & E2). destruct (IVT f a M Cf ltac:(lra) F1 F3) as (x3 & B3 & E3).
  assert (E2' : f x2 = 0) by (unfold opp_fct in E2; lra). exists x1, x2, x3. repeat split; auto; apply Rnot_le_lt; intros N.
  - replace x1 with (- a) in E1 by lra. lra.
  - replace x2 with (- a) in E2' by lra. lra.
  - replace x2 with a in E2' by lra. lra.
  - replace x3 with a in E3 by lra. lra.
Qed.
Lemma axis_factor (w a e1 x : R) : peval (poly_coeffs_binary (RtoC w) a e1) (RtoC x) =
  RtoC (axis_cubic w a e1 x * ((x * x - a * a) * (1 + w * w - a * a) - (x - w) * (x + (2 * e1 - 1) * a))).
Proof.
  unfold poly_coeffs_binary, axis_cubic. cbn [peval length]. rewrite Cconj_RtoC. repeat (rewrite ?RtoC_mult, ?RtoC_plus, ?RtoC_minus). ring.
Qed.
Lemma axis_real (w a e1 : R) c : In c (poly_coeffs_binary (RtoC w) a e1) -> Im c = 0.
Proof. unfold poly_coeffs_binary. rewrite Cconj_RtoC. intros [<-|[<-|[<-|[<-|[<-|[<-|[]]]]]]]; unfold Im; cbn; ring. Qed.
Lemma nth_of (rs : list C) r : In r rs -> exists i, (i < length rs)%nat /\ nth i rs (RtoC 0) = r.
Proof. intros I. apply (In_nth _ _ (RtoC 0)) in I. destruct I as (i & A & B). eauto. Qed.

(** every two-lens system and every source on the line through its masses, whatever the tolerance and the number of iterations *)
Theorem C78_axis_refuted : forall s q (w : R) rs d tol max_iter, 0 < s -> 0 < q ->
  let a := 0.5 * s in let cs := poly_coeffs_binary (RtoC w) a (q / (1 + q)) in
  w <> a -> w <> - a -> splits cs rs -> 0 < d -> separated d rs -> ~ default_start_finds cs rs d tol max_iter.
Proof.
  intros s q w rs d tol m Hs Hq a cs N1 N2 S Hd Sep. assert (Ha : 0 < a) by (unfold a; lra).
  assert (He : 0 < q / (1 + q) < 1). { split; [apply Rdiv_lt_0_compat; lra|]. apply (Rmult_lt_reg_r (1 + q)); [lra|]. unfold Rdiv. rewrite Rmult_assoc, Rinv_l by lra. lra. }
  assert (H0 : hd (RtoC 0) cs <> RtoC 0).
  { unfold cs, poly_coeffs_binary. cbn [hd]. rewrite Cconj_RtoC, <- !RtoC_mult, <- RtoC_opp, <- RtoC_plus. apply RtoC_neq0. replace (- (a * a) + w * w) with ((w - a) * (w + a)) by ring. apply Rmult_integral_contrapositive_currified; lra. }
  assert (L5 : length rs = 5%nat) by (rewrite (splits_length cs rs H0 S); reflexivity).
  destruct (axis_images w a (q / (1 + q)) Ha He) as (x1 & x2 & x3 & B1 & B2 & E1 & E2 & E3).
  assert (I : forall x, axis_cubic w a (q / (1 + q)) x = 0 -> exists i, (i < length rs)%nat /\ nth i rs (RtoC 0) = RtoC x).
  { intros x Ex. apply nth_of. apply (splits_root cs rs); auto. unfold cs. rewrite axis_factor, Ex, Rmult_0_l. reflexivity. }
  destruct (I x1 E1) as (i & Hi & Ei). destruct (I x2 E2) as (j & Hj & Ej).
  apply C78_odd_degree_refuted; auto; [cbn; lia|apply axis_real|rewrite L5; exists 2%nat; reflexivity|].
  assert (Nij : i <> j). { intros ->. rewrite Ei in Ej. apply RtoC_inj in Ej. lra. }
  destruct (Nat.lt_ge_cases i j); [exists i, j|exists j, i]; (split; [lia|]); rewrite Ei, Ej; auto.
Qed.
Print Assumptions C78_axis_refuted.

(** the first point of every critical curve of two lenses, phase - PI: a real quartic without real roots *)
Theorem C78_critical_refuted : forall s q rs d tol max_iter npts, 0 < s -> 0 < q -> (2 <= npts)%nat ->
  let cs := poly_coeffs_critical_binary (nth 0 (linspace (- PI) PI npts) 0) (0.5 * s) (q / (1 + q)) in
  splits cs rs -> 0 < d -> separated d rs -> ~ default_start_finds cs rs d tol max_iter.
Proof.
  intros s q rs d tol m npts Hs Hq Hn cs S Hd Sep. set (a := 0.5 * s) in *. assert (Ha : 0 < a) by (unfold a; lra). set (e1 := q / (1 + q)) in *.
  assert (He : 0 < e1 < 1). { unfold e1. split; [apply Rdiv_lt_0_compat; lra|]. apply (Rmult_lt_reg_r (1 + q)); [lra|]. unfold Rdiv. rewrite Rmult_assoc, Rinv_l by lra. lra. }
  assert (Ph : nth 0 (linspace (- PI) PI npts) 0 = - PI).
  { unfold linspace. destruct npts as [|[|n]]; [lia|lia|]. rewrite (nth_map_lt _ _ _ O) by (rewrite seq_length; lia). rewrite seq_nth by lia. rewrite Nat.add_0_l. cbn [INR]. unfold Rdiv. rewrite ?Rmult_0_l, ?Rmult_0_r. ring. }
  assert (X : cexpi (- - PI) = RtoC (Ropp 1)) by (unfold cexpi, RtoC; rewrite Ropp_involutive, cos_PI, sin_PI; reflexivity).
  assert (Ec : cs = map RtoC [Ropp 1; 0; 2 * a ^ 2 - 1; - 4 * a * e1 + 2 * a; - a ^ 4 - a ^ 2]).
  { unfold cs, poly_coeffs_critical_binary. rewrite Ph, X. cbn [map]. repeat f_equal; apply Ceq; unfold Re, Im; cbn; ring. }
  assert (H0 : hd (RtoC 0) cs <> RtoC 0) by (rewrite Ec; cbn [hd map]; apply RtoC_neq0; lra).
  assert (L4 : length rs = 4%nat) by (rewrite (splits_length cs rs H0 S), Ec; reflexivity).
  apply C78_even_degree_refuted; auto; [rewrite Ec; cbn; lia|rewrite Ec; intros c I; apply in_map_iff in I; now destruct I as (x & <- & _)|rewrite L4; exists 2%nat; reflexivity|].
  right. intros i Hi R0. assert (I : In (nth i rs (RtoC 0)) rs) by now apply nth_In. apply (splits_root cs rs) in I; auto. destruct (nth i rs (RtoC 0)) as (x & y) eqn:Ez. unfold Im in R0. cbn [snd] in R0. subst y. change (x, 0) with (RtoC x) in I.
  assert (V : peval cs (RtoC x) = RtoC (- ((x * x - a * a) * (x * x - a * a) + e1 * (x + a) ^ 2 + (1 - e1) * (x - a) ^ 2))).
  { rewrite Ec. cbn [map peval length]. rewrite <- !RtoC_pow, <- !RtoC_mult, <- !RtoC_plus. rewrite Cplus_0_r || idtac. rewrite <- ?RtoC_plus. f_equal. ring. }
  rewrite V in I. apply RtoC_inj in I. assert (0 < e1 * (x + a) ^ 2 + (1 - e1) * (x - a) ^ 2); [|pose proof (Rle_0_sqr (x * x - a * a)) as Sq; unfold Rsqr in Sq; lra].
  assert (P1 : 0 <= (x + a) ^ 2) by apply pow2_ge_0. assert (P2 : 0 <= (x - a) ^ 2) by apply pow2_ge_0. destruct (Rle_dec x 0) as [Hx|Hx]; [assert (0 < (x - a) ^ 2) by nra|assert (0 < (x + a) ^ 2) by nra]; nra.
Qed.
Print Assumptions C78_critical_refuted.
(** so, with that solver, the first points of the branches returned by [critical_and_caustic_curves] miss one of the critical points of phase - PI *)
Theorem C78_critical_curve_refuted : forall p s q npts rs d, p_s p = Some s -> p_q p = Some q -> 0 < s -> 0 < q -> (2 <= npts)%nat ->
  (forall z, In z rs <-> off_masses (binary_lens s q) z /\ shear (binary_lens s q) z = RtoC (Ropp 1)) -> length rs = 4%nat -> 0 < d -> separated d rs ->
  exists r, critical_and_caustic_curves ea_solver npts 2 p = Ok r /\ length (fst r) = 4%nat /\
  ((exists out, poly_roots_EA (poly_coeffs_critical_binary (- PI) (0.5 * s) (q / (1 + q))) None default_tol default_max_iter = Ok out /\ In None out) \/
  exists z, In z rs /\ jacobian_det (binary_lens s q) z 0 /\ forall branch, In branch (fst r) -> d / 2 <= Cmod (nth 0 branch (RtoC 0) - z)%C).
Proof.
  intros p s q npts rs d Es Eq Hs Hq Hn Hrs L4 Hd Sep. unfold critical_and_caustic_curves. cbn [Z.eqb Pos.eqb]. rewrite Es, Eq. cbn [getp]. eexists. split; [reflexivity|].
  set (a := 0.5 * s). set (e1 := q / (1 + q)). set (X := 0.5 * s * (1 - q) / (1 + q)).
  set (cs := poly_coeffs_critical_binary (nth 0 (linspace (- PI) PI npts) 0) a e1).
  assert (Ph : nth 0 (linspace (- PI) PI npts) 0 = - PI).
  { rewrite linspace_nth by lia. cbn [INR]. ring. }
  assert (He : 0 < e1 < 1). { unfold e1. split; [apply Rdiv_lt_0_compat; lra|]. apply (Rmult_lt_reg_r (1 + q)); [lra|]. unfold Rdiv. rewrite Rmult_assoc, Rinv_l by lra. lra. }
  assert (Ha : a <> 0) by (unfold a; lra).
  assert (Fr : Permutation (binary_lens s q) (shift_lens (RtoC X) (binary_mid a e1))) by (apply (binary_frame s q); lra).
  set (rs' := map (fun z => (z - RtoC X)%C) rs).
  assert (H0 : hd (RtoC 0) cs <> RtoC 0) by (cbn [hd cs poly_coeffs_critical_binary]; apply cexpi_neq0).
  destruct (splits_exists cs H0) as (ts & Sts). assert (Lt : length ts = 4%nat) by (rewrite (splits_length cs ts H0 Sts); reflexivity).
  assert (Sep' : separated d rs').
  { intros i j Hi Hj N. unfold rs' in *. rewrite map_length in Hi, Hj. rewrite !(nth_map_lt _ _ _ (RtoC 0)) by auto. replace (nth i rs (RtoC 0) - RtoC X - (nth j rs (RtoC 0) - RtoC X))%C with (nth i rs (RtoC 0) - nth j rs (RtoC 0))%C by ring. now apply Sep. }
  assert (ND : NoDup rs').
  { apply (NoDup_nth rs' (RtoC 0)). intros i j Hi Hj E. destruct (Nat.eq_dec i j) as [|N]; auto. pose proof (Sep' i j Hi Hj N) as B. rewrite E in B. replace (nth j rs' (RtoC 0) - nth j rs' (RtoC 0))%C with (RtoC 0) in B by ring. rewrite Cmod_0 in B. lra. }
  assert (Inc : incl rs' ts).
  { intros z Hz. unfold rs' in Hz. apply in_map_iff in Hz. destruct Hz as (y & <- & Hy). apply Hrs in Hy. destruct Hy as (Ho & Hsh). apply (splits_root cs ts); auto. unfold cs. rewrite Ph.
    apply (frame_off _ _ _ _ Fr) in Ho. rewrite (frame_shear _ _ _ _ Fr) in Hsh. apply off_binary in Ho. destruct Ho. apply root_phase2; auto. rewrite Hsh. unfold cexpi. rewrite cos_neg, sin_neg, cos_PI, sin_PI. unfold RtoC. f_equal. ring. }
  assert (Pm : Permutation rs' ts) by (apply NoDup_Permutation_bis; auto; unfold rs'; rewrite map_length; lia).
  assert (S : splits cs rs') by (intros z; rewrite (Sts z); f_equal; apply prodC_perm; apply Permutation_map; now apply Permutation_sym).
  pose proof (C78_critical_refuted s q rs' d default_tol default_max_iter npts Hs Hq Hn S Hd Sep') as Nf. cbv zeta in Nf. fold a e1 cs in Nf.
  set (row := fun t => ea_solver (poly_coeffs_critical_binary t a e1) None).
  assert (Lr : forall t, length (row t) = 4%nat) by (intros t; unfold row, ea_solver; rewrite map_length, from_length, initial_circle_length; reflexivity).
  set (out := poly_roots_EA_from (poly_coeffs_critical_binary (- PI) a e1) (initial_circle (poly_coeffs_critical_binary (- PI) a e1)) default_tol default_max_iter).
  assert (Eo : poly_roots_EA (poly_coeffs_critical_binary (- PI) a e1) None default_tol default_max_iter = Ok out) by reflexivity.
  assert (Dn : In None out \/ out = map Some (row (- PI))).
  { assert (G : forall l : list est, In None l \/ l = map Some (map (fun e : est => match e with Some z => z | None => RtoC 0 end) l)).
    { induction l as [|[x|] l [I|I]]; [now right| | | |]; try (left; now left); try (left; now right). right. cbn [map]. f_equal. exact I. }
    exact (G out). }
  assert (Ms : In None out \/ exists z, In z rs' /\ forall x, In x (row (- PI)) -> d / 2 <= Cmod (x - z)%C).
  { destruct Dn as [Dn|Dn]; [now left|right]. destruct (Exists_dec (fun z => List.Forall (fun x => d / 2 <= Cmod (x - z)%C) (row (- PI))) rs') as [E|N].
    - intros z. apply Forall_dec. intros x. apply Rle_dec.
    - apply Exists_exists in E. destruct E as (z & Hz & F). exists z. split; auto. now apply Forall_forall.
    - elim Nf. exists (map Some (row (- PI))). split. { unfold cs. rewrite Ph, Eo. f_equal. exact Dn. }
      intros i Hi. destruct (Exists_dec (fun x => Cmod (x - nth i rs' (RtoC 0))%C < d / 2) (row (- PI))) as [E|N2].
      + intros x. apply Rlt_dec.
      + apply Exists_exists in E. destruct E as (x & Hx & Lx). exists x. split; auto. now apply in_map.
      + elim N. apply Exists_exists. exists (nth i rs' (RtoC 0)). split; [now apply nth_In|]. apply Forall_forall. intros x Hx. apply Rnot_lt_le. intros Lx. apply N2. apply Exists_exists. eauto. }
  destruct (crit_finish 4 (lens_eq2 a e1) X (map row (linspace (- PI) PI npts))) as (zcr & zca) eqn:Ecf.
  match goal with |- context [crit_finish ?A ?B ?D ?G] => change (crit_finish A B D G) with (crit_finish 4 (lens_eq2 a e1) X (map row (linspace (- PI) PI npts))) end. rewrite Ecf. cbn [fst].
  apply crit_finish_spec in Ecf. 2:{ intros r Hr. apply in_map_iff in Hr. destruct Hr as (t & <- & _). apply Lr. }
  destruct Ecf as (L1 & _ & _ & Hcol). split; auto. destruct Ms as [Nn|(z & Hz & Far)]; [left; exists out; auto|right]. rewrite map_length, linspace_length in Hcol. destruct (Hcol O ltac:(lia)) as (col & Pc & Hb). rewrite (nth_map_lt _ _ _ 0) in Pc by (rewrite linspace_length; lia). rewrite Ph in Pc.
  unfold rs' in Hz. apply in_map_iff in Hz. destruct Hz as (y & <- & Hy). exists y. split; auto. split.
  { apply Hrs in Hy. destruct Hy as (Ho & Hsh). apply jac0_shear; auto. rewrite Hsh, Cmod_R, Rabs_left by lra. lra. }
  intros branch Hbr. apply (In_nth _ _ []) in Hbr. destruct Hbr as (b & Hb4 & <-). rewrite L1 in Hb4. destruct (Hb b Hb4) as (Eb & _). rewrite Eb.
  replace (nth b col (RtoC 0) + RtoC X - y)%C with (nth b col (RtoC 0) - (y - RtoC X))%C by ring. apply Far. apply (Permutation_in _ Pc). apply nth_In. rewrite (Permutation_length Pc), Lr. auto.
Qed.
Print Assumptions C78_critical_curve_refuted.

(** ** what does hold: once the estimates, none of them frozen yet, are close to the roots, all roots are found *)
Lemma loop_split cs dcs eps tol k : forall m st, (k <= m)%nat -> (forall j, (j < k)%nat -> forallb snd (ea_iter cs dcs eps tol j st) = false) ->
  snd (ea_loop cs dcs eps tol m st) = snd (ea_loop cs dcs eps tol (m - k) (ea_iter cs dcs eps tol k st)).
Proof.
  induction k as [|k IH]; intros m st Hm F; [now rewrite Nat.sub_0_r|]. destruct m as [|m]; [lia|]. cbn [ea_loop]. pose proof (F O ltac:(lia)) as F0. cbn in F0. rewrite F0.
  rewrite ea_iter_S, Nat.sub_succ. rewrite <- (IH m (ea_body cs dcs eps tol st)); [|lia|].
  - destruct (ea_loop cs dcs eps tol m (ea_body cs dcs eps tol st)). reflexivity.
  - intros j Hj. rewrite <- ea_iter_S. apply F. lia.
Qed.
Lemma flags_false cs dcs eps tol st i j k : (i < length st)%nat -> (j <= k)%nat -> snd (nth i (ea_iter cs dcs eps tol k st) st_def) = false -> snd (nth i (ea_iter cs dcs eps tol j st) st_def) = false.
Proof.
  intros Hi Hk E. destruct (nth i (ea_iter cs dcs eps tol j st) st_def) as (r & [|]) eqn:Ej; [|reflexivity]. rewrite (ea_iter_frozen _ _ _ _ _ _ _ _ _ Hi Hk Ej) in E. discriminate.
Qed.
Theorem C78_once_close_partial : forall cs rs d tol max_iter k zs, (2 <= length cs)%nat -> hd (RtoC 0) cs <> RtoC 0 -> splits cs rs ->
  0 < d -> separated d rs -> 0 <= tol -> (k <= max_iter)%nat ->
  Nat.iter k (ea_body cs (polyder_coeffs cs) (eps64 * 10) tol) (map (fun z => (Some z, false)) (initial_circle cs)) = map (fun z => (Some z, false)) zs ->
  within (d / (3 * INR (length rs))) rs zs ->
  exists out, poly_roots_EA cs None tol max_iter = Ok out /\ length out = length rs /\
  forall i, (i < length rs)%nat -> exists z, nth i out None = Some z /\
    Cmod (z - nth i rs (RtoC 0))%C <= Rmax tol (d / (3 * INR (length rs)) / 2 ^ (max_iter - k)) + 10 * tol.
Proof.
  intros cs rs d tol m k zs L H0 S Hd Hs Ht Hk It Hw. destruct (C77_warm_start cs rs zs d tol (m - k) L H0 S Hd Hs Hw Ht) as (out & E & R). exists out. split; auto.
  unfold poly_roots_EA in *. destruct (Nat.ltb_spec (length cs - 1) 1); [lia|]. rewrite <- E. f_equal. unfold poly_roots_EA_from.
  set (it := ea_iter cs (polyder_coeffs cs) (eps64 * 10) tol). change (it k (st0 (initial_circle cs)) = st0 zs) in It. fold (st0 (initial_circle cs)). fold (st0 zs).
  assert (Ln : length (st0 zs) = length (st0 (initial_circle cs))) by (rewrite <- It; apply ea_iter_length).
  pose proof (loop_split cs (polyder_coeffs cs) (eps64 * 10) tol k m (st0 (initial_circle cs)) Hk) as Sp. fold it in Sp. rewrite It in Sp.
  destruct (ea_loop cs (polyder_coeffs cs) (eps64 * 10) tol m (st0 (initial_circle cs))) as (i1 & st1). destruct (ea_loop cs (polyder_coeffs cs) (eps64 * 10) tol (m - k) (st0 zs)) as (i2 & st2). cbn [snd] in Sp. rewrite Sp; [reflexivity|].
  intros j Hj. assert (P : (0 < length (st0 (initial_circle cs)))%nat) by (unfold st0; rewrite map_length, initial_circle_length; lia).
  assert (F : snd (nth 0 (it j (st0 (initial_circle cs))) st_def) = false).
  { apply (flags_false _ _ _ _ _ 0 j k); [auto|lia|]. fold it. rewrite It. unfold st0. destruct zs; [rewrite <- Ln in P; cbn in P; lia|reflexivity]. }
  pose proof (ea_iter_length cs (polyder_coeffs cs) (eps64 * 10) tol j (st0 (initial_circle cs))) as Lj. fold it in Lj. destruct (it j (st0 (initial_circle cs))) as [|p t]; [cbn in Lj; lia|]. cbn [nth] in F. cbn [forallb]. rewrite F. reflexivity.
Qed.
Print Assumptions C78_once_close_partial.

(** z^2 - 1 is solved: one step brings the estimates from 2 and -2 to 14/13 and -14/13 *)
Example C78_solved : forall max_iter, (1 <= max_iter)%nat -> exists out, poly_roots_EA [RtoC 1; RtoC 0; RtoC (Ropp 1)] None 1e-12 max_iter = Ok out /\ length out = 2%nat /\
  forall i, (i < 2)%nat -> exists z, nth i out None = Some z /\ Cmod (z - nth i [RtoC 1; RtoC (Ropp 1)] (RtoC 0))%C <= Rmax 1e-12 (1 / 3 / 2 ^ (max_iter - 1)) + 1e-11.
Proof.
  intros m Hm. set (cs := [RtoC 1; RtoC 0; RtoC (Ropp 1)]). set (rs := [RtoC 1; RtoC (Ropp 1)]).
  assert (E0 : initial_circle cs = [RtoC 2; RtoC (Ropp 2)]).
  { assert (Rd : cauchy_radius cs = 2).
    { unfold cauchy_radius, cs. cbn [nth tl map jmax fold_left]. rewrite !Cmod_R, Rabs_R0, (Rabs_left (Ropp 1)), Rabs_pos_eq by lra. assert (e : eps64 <= 1) by (unfold eps64; lra). rewrite (Rmax_left 1) by auto.
      unfold Rmax. repeat destruct (Rle_dec _ _); lra. }
    unfold initial_circle. rewrite Rd. unfold cs. cbn [length Nat.sub seq map INR]. replace (2 * PI * 0 / (1 + 1)) with 0 by lra. replace (2 * PI * 1 / (1 + 1)) with PI by lra. rewrite cexpi_0.
    repeat f_equal; apply Ceq; unfold cexpi, Re, Im; cbn; rewrite ?cos_PI, ?sin_PI; ring. }
  assert (D : polyder_coeffs cs = [RtoC 2; RtoC 0]) by (unfold polyder_coeffs, cs; cbn [length Nat.sub Nat.eqb seq map nth INR]; repeat f_equal; apply Ceq; unfold Re, Im; cbn; ring).
  assert (U : forall x y den u : R, recip_sum (RtoC x) [RtoC 2; RtoC (Ropp 2)] = RtoC (/ (x - y)) -> x - y <> 0 -> den = 2 * x - (x * x - 1) * / (x - y) -> 1 <= Rabs den -> u = (x * x - 1) / den ->
    ea_update cs [RtoC 2; RtoC 0] (eps64 * 10) [RtoC 2; RtoC (Ropp 2)] (RtoC x) = Some (RtoC u)).
  { intros x y den u Er Hn Ed Hb Eu. unfold ea_update. rewrite Er. assert (Ef : polyval cs (RtoC x) = RtoC (x * x - 1)) by (unfold polyval, cs; cbn [fold_left]; apply Ceq; unfold Re, Im; cbn; ring).
    assert (Ep : polyval [RtoC 2; RtoC 0] (RtoC x) = RtoC (2 * x)) by (unfold polyval; cbn [fold_left]; apply Ceq; unfold Re, Im; cbn; ring). rewrite Ef, Ep, <- RtoC_mult, <- RtoC_minus, <- Ed, Cmod_R.
    assert (e : eps64 * 10 <= 1) by (unfold eps64; lra). destruct (Rltb_spec (Rabs den) (eps64 * 10)); [lra|]. assert (Nd : den <> 0) by (intros ->; rewrite Rabs_R0 in Hb; lra).
    destruct (Ceq_dec (RtoC den) 0) as [E|_]; [now apply RtoC_inj in E|]. now rewrite <- RtoC_div, Eu by auto. }
  assert (R1 : recip_sum (RtoC 2) [RtoC 2; RtoC (Ropp 2)] = RtoC (/ (2 - Ropp 2))).
  { unfold recip_sum. cbn [map sumC]. destruct (Ceq_dec (RtoC 2 - RtoC 2)%C 0) as [_|N]; [|elim N; ring]. destruct (Ceq_dec (RtoC 2 - RtoC (Ropp 2))%C 0) as [E|_]; [injection E; lra|].
    rewrite <- RtoC_minus, <- RtoC_div, <- !RtoC_plus by lra. f_equal. unfold Rdiv. ring. }
  assert (R2 : recip_sum (RtoC (Ropp 2)) [RtoC 2; RtoC (Ropp 2)] = RtoC (/ (Ropp 2 - 2))).
  { unfold recip_sum. cbn [map sumC]. destruct (Ceq_dec (RtoC (Ropp 2) - RtoC (Ropp 2))%C 0) as [_|N]; [|elim N; ring]. destruct (Ceq_dec (RtoC (Ropp 2) - RtoC 2)%C 0) as [E|_]; [injection E; lra|].
    rewrite <- RtoC_minus, <- RtoC_div, <- !RtoC_plus by lra. f_equal. unfold Rdiv. ring. }
  pose proof (U 2 (Ropp 2) (13 / 4) (12 / 13) R1 ltac:(lra) ltac:(field; lra) ltac:(rewrite Rabs_pos_eq; lra) ltac:(field; lra)) as U1.
  pose proof (U (Ropp 2) 2 (Ropp (13 / 4)) (Ropp (12 / 13)) R2 ltac:(lra) ltac:(field; lra) ltac:(rewrite Rabs_left; lra) ltac:(field; lra)) as U2.
  destruct (C78_once_close_partial cs rs 2 1e-12 m 1 [RtoC (14 / 13); RtoC (Ropp (14 / 13))]) as (out & A & B & G); auto; try (cbn; lia); try lra.
  - unfold cs. cbn [hd]. apply RtoC_neq0. lra.
  - intros z. unfold cs, rs. cbn [peval length hd map prodC]. rewrite RtoC_opp. ring.
  - intros i j Hi Hj N. unfold rs in *. cbn [length] in Hi, Hj. destruct i as [|[|i]], j as [|[|j]]; try lia; cbn [nth]; rewrite <- RtoC_minus, Cmod_R; unfold Rabs; destruct (Rcase_abs _); lra.
  - match goal with |- Nat.iter 1 ?f ?x = _ => change (f x = map (fun z : C => (Some z : est, false)) [RtoC (14 / 13); RtoC (Ropp (14 / 13))]) end. rewrite E0, D. cbn [map]. rewrite ea_body_map. cbn [map fst]. unfold step1, upd_of. cbn [fst snd all_some option_map orb]. rewrite U1, U2. cbn [est_minus est_small].
    rewrite <- !RtoC_minus, !Cmod_R. rewrite (Rabs_pos_eq (12 / 13)), (Rabs_left (Ropp (12 / 13))) by lra. destruct (Rleb_spec (12 / 13) 1e-12); [lra|]. destruct (Rleb_spec (- Ropp (12 / 13)) 1e-12); [lra|]. replace (2 - 12 / 13) with (14 / 13) by lra. replace (Ropp 2 - Ropp (12 / 13)) with (Ropp (14 / 13)) by lra. reflexivity.
  - split; [reflexivity|]. unfold rs. cbn [length INR]. intros [|[|i]] Hi; try lia; cbn [nth]; rewrite <- RtoC_minus, Cmod_R; unfold Rabs; destruct (Rcase_abs _); lra.
  - exists out. repeat split; auto. intros i Hi. destruct (G i Hi) as (z & Ez & Hz). exists z. split; auto. unfold rs in Hz at 2. cbn [length INR] in Hz. replace (2 / (3 * (1 + 1))) with (1 / 3) in Hz by lra. replace (10 * 1e-12) with 1e-11 in Hz by lra. exact Hz.
Qed.
Print Assumptions C78_solved.

(** z^2 + 1 never is; nor is the quintic of two equal masses sqrt 5 apart with the source in the middle *)
Example C78_worked : (forall tol max_iter, ~ default_start_finds [RtoC 1; RtoC 0; RtoC 1] [Ci; (- Ci)%C] 2 tol max_iter) /\
  (forall tol max_iter, ~ default_start_finds (poly_coeffs_binary (RtoC 0) (0.5 * sqrt 5) (1 / (1 + 1))) [RtoC 0; RtoC (3 / 2); RtoC (- (3 / 2)); RtoC (1 / 2); RtoC (- (1 / 2))] (1 / 2) tol max_iter).
Proof.
  split; intros tol m.
  - apply C78_even_degree_refuted; try lra; [cbn; lia|intros c [<-|[<-|[<-|[]]]]; reflexivity|cbn [hd]; apply RtoC_neq0; lra|intros z; cbn [peval length hd map prodC]; apply Ceq; unfold Re, Im, Ci; cbn; ring| |exists 1%nat; reflexivity|right].
    + intros i j Hi Hj N. cbn [length] in Hi, Hj. assert (M : Cmod (Ci - - Ci)%C = 2 /\ Cmod (- Ci - Ci)%C = 2).
      { assert (E1 : (Ci - - Ci)%C = (0, 2)) by (apply Ceq; unfold Re, Im, Ci; cbn; ring). assert (E2 : (- Ci - Ci)%C = (0, Ropp 2)) by (apply Ceq; unfold Re, Im, Ci; cbn; ring). rewrite E1, E2. unfold Cmod. cbn [fst snd].
        split; (replace (0 ^ 2 + _ ^ 2) with (2 * 2) by ring); apply sqrt_square; lra. }
      destruct M as (M1 & M2). destruct i as [|[|i]], j as [|[|j]]; try lia; cbn [nth]; lra.
    + intros i Hi. cbn [length] in Hi. destruct i as [|[|i]]; [| |lia]; cbn [nth]; unfold Im, Ci; cbn; lra.
  - assert (G : 2 < sqrt 5) by (rewrite <- (sqrt_square 2) by lra; apply sqrt_lt_1; lra). apply (C78_axis_refuted (sqrt 5) 1 0); try lra.
    + assert (Q : sqrt 5 * sqrt 5 = 5) by (apply sqrt_sqrt; lra). assert (B : 0.5 * sqrt 5 * (0.5 * sqrt 5) = 5 / 4) by lra.
      assert (V : sqrt (5 / 4 - 1) = 1 / 2) by (replace (5 / 4 - 1) with (1 / 2 * (1 / 2)) by lra; apply sqrt_square; lra).
      assert (U : sqrt (5 / 4 + 1) = 3 / 2) by (replace (5 / 4 + 1) with (3 / 2 * (3 / 2)) by lra; apply sqrt_square; lra).
      pose proof (c_splits _ G) as S. rewrite (c_solver (sqrt 5)), B in S. unfold central_roots, central_coeffs in S. rewrite U, V, (c_w (sqrt 5)) in S. exact S.
    + intros i j Hi Hj N. cbn [length] in Hi, Hj. do 5 (destruct i as [|i]; [do 5 (destruct j as [|j]; [try (now elim N); cbn [nth]; rewrite <- RtoC_minus, Cmod_R; unfold Rabs; destruct (Rcase_abs _); lra|]); exfalso; lia|]). exfalso; lia.
Qed.
Print Assumptions C78_worked.
