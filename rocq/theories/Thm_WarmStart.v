(** The root finder from a warm start, and tracking along a trajectory: property C77. *)
From Coq Require Import Reals List Bool Arith ZArith Lia Lra.
From Coquelicot Require Import Complex.
From Verif Require Import Base_R Base_List Base_C M_Utils M_Assembly M_Coeffs M_PolySolver M_PointSource S_Poly P_Poly P_PolyRoots P_PolySolver P_MagJump P_WarmStart.
Import ListNotations.
Local Open Scope R_scope.

(** the roots are pairwise at least [d] apart *)
Definition separated (d : R) (rs : list C) : Prop :=
  forall i j, (i < length rs)%nat -> (j < length rs)%nat -> i <> j -> d <= Cmod (nth i rs (RtoC 0) - nth j rs (RtoC 0))%C.
(** entry by entry within [E] *)
Definition within (E : R) (rs zs : list C) : Prop :=
  length zs = length rs /\ forall i, (i < length rs)%nat -> Cmod (nth i zs (RtoC 0) - nth i rs (RtoC 0))%C <= E.
Lemma within_F2 E rs zs : within E rs zs <-> Forall2 (fun r x => Cmod (x - r)%C <= E) rs zs.
Proof.
  split.
  - intros (Hl & H). apply (Forall2_nth _ _ _ (RtoC 0) (RtoC 0)); auto.
  - intros F. split; [symmetry; apply (Forall2_len _ _ _ F)|]. intros i Hi. apply (Forall2_nth_inv (fun r x => Cmod (x - r)%C <= E) _ _ (RtoC 0) (RtoC 0) F i Hi).
Qed.
Lemma E_of n d : (1 <= n)%nat -> 0 < d -> 0 <= d / (3 * INR n) /\ 3 * INR n * (d / (3 * INR n)) <= d.
Proof. intros Hn Hd. assert (P : 1 <= INR n) by (apply (le_INR 1); lia). split; [apply Rmult_le_pos; [lra|left; apply Rinv_0_lt_compat; lra]|right; field; lra]. Qed.

(** guesses within the [3 n]-th part of the separation of the [n] roots end at the roots, in the same order *)
Theorem C77_warm_start : forall cs rs init d tol max_iter, (2 <= length cs)%nat -> hd (RtoC 0) cs <> RtoC 0 -> splits cs rs ->
  0 < d -> separated d rs -> within (d / (3 * INR (length rs))) rs init -> 0 <= tol ->
  exists out, poly_roots_EA cs (Some init) tol max_iter = Ok out /\ length out = length rs /\
  forall i, (i < length rs)%nat -> exists z, nth i out None = Some z /\
    Cmod (z - nth i rs (RtoC 0))%C <= Rmax tol (d / (3 * INR (length rs)) / 2 ^ max_iter) + 10 * tol.
Proof.
  intros cs rs init d tol m L H0 S Hd Hs Hw Ht. assert (Hn : (1 <= length rs)%nat) by (rewrite (splits_length cs rs H0 S); lia). destruct (E_of _ d Hn Hd) as (E0 & E1). apply within_F2 in Hw. pose proof (warm_result cs rs d _ tol L S H0 Hd Hs E0 E1 init m Ht Hw) as W.
  eexists. split. { unfold poly_roots_EA. destruct (Nat.ltb_spec (length cs - 1) 1); [lia|reflexivity]. } split; [symmetry; apply (Forall2_len _ _ _ W)|].
  intros i Hi. exact (Forall2_nth_inv _ _ _ (RtoC 0) None W i Hi).
Qed.
Print Assumptions C77_warm_start.
(** the loop stops by itself: [k + 1] iterations are enough once [2^k] times the tolerance exceeds one and a half times the initial error *)
Theorem C77_iterations : forall cs rs init d E tol max_iter k, (2 <= length cs)%nat -> hd (RtoC 0) cs <> RtoC 0 -> splits cs rs ->
  0 < d -> separated d rs -> 0 <= E -> 3 * INR (length rs) * E <= d -> within E rs init -> 3 / 2 * E <= tol * 2 ^ k ->
  (fst (ea_loop cs (polyder_coeffs cs) (eps64 * 10) tol max_iter (map (fun r => (Some r, false)) init)) <= S k)%nat.
Proof.
  intros cs rs init d E tol m k L H0 S Hd Hs E0 E1 Hw Hk. apply within_F2 in Hw. pose proof (warm_loop cs rs d E tol L S H0 Hd Hs E0 E1 init m Hw) as W. fold (st0 init).
  destruct (ea_loop cs (polyder_coeffs cs) (eps64 * 10) tol m (st0 init)) as (it & st). cbn [fst]. apply W. assert (P : 0 < 2 ^ k) by (apply pow_lt; lra). apply (Rmult_le_reg_r (2 ^ k)); auto. replace (3 / 2 * (E / 2 ^ k) * 2 ^ k) with (3 / 2 * E) by (field; lra). auto.
Qed.
Print Assumptions C77_iterations.
(** every step at least halves every error; and the errors are cubed while the denominator guard does not act *)
Theorem C77_one_step : forall cs rs zs d E eps i, (2 <= length cs)%nat -> hd (RtoC 0) cs <> RtoC 0 -> splits cs rs ->
  0 < d -> separated d rs -> 0 <= E -> 3 * INR (length rs) * E <= d -> within E rs zs -> (i < length rs)%nat ->
  let z := nth i zs (RtoC 0) in let r := nth i rs (RtoC 0) in
  exists u, ea_update cs (polyder_coeffs cs) eps zs z = Some u /\ Cmod (z - u - r)%C <= Cmod (z - r)%C / 2 /\
    (eps <= Cmod (peval (pderiv cs) z - peval cs z * recip_sum z zs)%C -> Cmod (z - u - r)%C <= 3 * INR (length rs) * E ^ 3 / d ^ 2).
Proof.
  intros cs rs zs d E eps i L H0 S Hd Hs E0 E1 Hw Hi z r. apply within_F2 in Hw. destruct (contract_nth cs rs zs d E eps i L S H0 Hd Hs E0 E1 Hw Hi) as (u & A & B & _ & D).
  exists u. repeat split; auto. intros G. replace (E ^ 3) with (E * E * E) by ring. replace (d ^ 2) with (d * d) by ring. now apply D.
Qed.
Print Assumptions C77_one_step.

(** the solver of the code with its defaults; a NaN, which does not occur below, is shown as 0 *)
Definition ea_solver (cs : list C) (init : option (list C)) : list C :=
  map (fun e : est => match e with Some z => z | None => RtoC 0 end)
    (poly_roots_EA_from cs (match init with None => initial_circle cs | Some i => i end) default_tol default_max_iter).
Lemma solver_warm cs rs init d : (2 <= length cs)%nat -> hd (RtoC 0) cs <> RtoC 0 -> splits cs rs -> length rs = 5%nat ->
  0 < d <= 10 ^ 18 -> separated d rs -> within (d / 15) rs init -> within (11e-12) rs (ea_solver cs (Some init)).
Proof.
  intros L H0 S Ln (Hd & Hb) Hs Hw. apply within_F2 in Hw. assert (E1 : 3 * INR (length rs) * (d / 15) <= d) by (rewrite Ln; cbn [INR]; lra).
  assert (T0 : 0 <= default_tol) by (unfold default_tol; left; apply Rinv_0_lt_compat; lra).
  pose proof (warm_result cs rs d (d / 15) default_tol L S H0 Hd Hs ltac:(lra) E1 init default_max_iter T0 Hw) as W. apply within_F2. unfold ea_solver.
  assert (B : Rmax default_tol (d / 15 / 2 ^ default_max_iter) + 10 * default_tol <= 11e-12).
  { assert (T1 : default_tol = 1e-12) by (unfold default_tol; lra). rewrite T1. enough (Rmax 1e-12 (d / 15 / 2 ^ default_max_iter) <= 1e-12) by lra. apply Rmax_lub; [lra|].
    assert (P : 0 < 2 ^ default_max_iter) by (apply pow_lt; lra). apply (Rmult_le_reg_r (2 ^ default_max_iter)); auto. unfold Rdiv. rewrite (Rmult_assoc _ (/ 2 ^ default_max_iter)), Rinv_l by lra.
    assert (G : 10 ^ 18 * / 15 <= 1e-12 * 2 ^ 100) by lra. unfold default_max_iter. lra. }
  clear - W B. induction W as [|r o rs os (z & -> & Hz) W IH]; cbn [map]; constructor; auto. lra.
Qed.
Local Opaque ea_solver.
(** exact root lists of the positions, entry [i] of one list being the continuation of entry [i] of the list before *)
Definition root_tracks (a e1 d : R) (ws : list C) (branches : list (list C)) : Prop :=
  length branches = length ws /\
  (forall k, (k < length ws)%nat -> let rs := nth k branches [] in let cs := poly_coeffs_binary (nth k ws (RtoC 0)) a e1 in
     hd (RtoC 0) cs <> RtoC 0 /\ splits cs rs /\ separated d rs) /\
  (forall k, (S k < length ws)%nat -> within (d / 15 - 11e-12) (nth (S k) branches []) (nth k branches [])).
Lemma tracks_tail a e1 d w t rs br : root_tracks a e1 d (w :: t) (rs :: br) -> root_tracks a e1 d t br.
Proof.
  intros (A & B & D). split; [cbn in A; lia|]. split; intros j Hj; [apply (B (S j))|apply (D (S j))]; cbn; lia.
Qed.
Lemma within_next d rs br z : within (d / 15 - 11e-12) br rs -> within (11e-12) rs z -> within (d / 15) br z.
Proof.
  intros (L1 & M1) (L2 & M2). split; [congruence|]. intros i Hi. specialize (M1 i Hi). specialize (M2 i ltac:(lia)).
  pose proof (Cmod_triangle (nth i z (RtoC 0) - nth i rs (RtoC 0))%C (nth i rs (RtoC 0) - nth i br (RtoC 0))%C) as T.
  replace (nth i z (RtoC 0) - nth i rs (RtoC 0) + (nth i rs (RtoC 0) - nth i br (RtoC 0)))%C with (nth i z (RtoC 0) - nth i br (RtoC 0))%C in T by ring. lra.
Qed.
(** tracking: as long as the roots move, from one position to the next, by less than a fifteenth of their separation,
    the i-th returned track follows the i-th root; the start may be off by as much *)
Theorem C77_tracking : forall a e1 d ws branches start, 0 < d <= 10 ^ 18 -> root_tracks a e1 d ws branches -> within (d / 15) (nth 0 branches []) start ->
  let tracks := seq_scan (fun init w => images2 ea_solver a e1 w init) start ws in
  length tracks = length ws /\ forall k, (k < length ws)%nat -> within (11e-12) (nth k branches []) (fst (nth k tracks ([], []))).
Proof.
  intros a e1 d ws branches start Hd Ht Hs tracks. unfold tracks. clear tracks. revert branches start Ht Hs. induction ws as [|w t IH]; intros br0 start Ht Hs; [split; cbn; [auto|intros; lia]|].
  pose proof Ht as (Lb & Hb & Hm). destruct br0 as [|rs br]; [discriminate|]. cbn [seq_scan]. cbn [nth] in Hs.
  assert (W0 : within (11e-12) rs (fst (images2 ea_solver a e1 w (Some start)))).
  { destruct (Hb 0%nat ltac:(cbn; lia)) as (A & B & G). cbn [nth] in A, B, G. cbn [images2 fst]. apply (solver_warm _ rs start d); auto; [cbn; lia|exact (splits_length _ _ A B)]. }
  destruct t as [|w1 t]. { split; auto. intros [|k] Hk; [exact W0|cbn in Hk; lia]. }
  destruct (IH br (fst (images2 ea_solver a e1 w (Some start))) (tracks_tail _ _ _ _ _ _ _ Ht)) as (IL & IK).
  { apply (within_next d rs); auto. apply (Hm 0%nat). cbn; lia. }
  split; [cbn [length] in *; now rewrite IL|]. intros [|k] Hk; [exact W0|]. cbn [nth]. apply IK. cbn [length] in *. lia.
Qed.
Print Assumptions C77_tracking.
(** [_images_point_source_sequential], whose first solve has no guess: that one is assumed to have found the roots (see C78) *)
Theorem C77_sequential : forall a e1 d ws branches, 0 < d <= 10 ^ 18 -> root_tracks a e1 d ws branches ->
  within (11e-12) (nth 0 branches []) (ea_solver (poly_coeffs_binary (nth 0 ws (RtoC 0)) a e1) None) ->
  let tracks := images_sequential (fun init w => images2 ea_solver a e1 w init) ws in
  length tracks = length ws /\ forall k, (k < length ws)%nat -> within (11e-12) (nth k branches []) (fst (nth k tracks ([], []))).
Proof.
  intros a e1 d ws branches Hd Ht Hf tracks. unfold tracks. clear tracks. destruct ws as [|w0 [|w1 t]]; [split; cbn; [auto|intros; lia]| |].
  - split; auto. intros [|k] Hk; [exact Hf|cbn in Hk; lia].
  - pose proof Ht as (Lb & Hb & Hm). destruct branches as [|rs0 br]; [discriminate|]. cbn [images_sequential].
    destruct (C77_tracking a e1 d (w1 :: t) br (fst (images2 ea_solver a e1 w0 None)) Hd (tracks_tail _ _ _ _ _ _ _ Ht)) as (K1 & K2).
    { apply (within_next d rs0); [apply (Hm 0%nat); cbn; lia|exact Hf]. }
    split; [cbn [length] in *; now rewrite K1|]. intros [|k] Hk; [exact Hf|]. cbn [nth]. apply K2. cbn [length] in *. lia.
Qed.
Print Assumptions C77_sequential.

(** two equal masses sqrt 5 apart, source in the middle: the roots 0, 3/2, -3/2, 1/2, -1/2 are found from guesses 1/30 off *)
Example C77_worked : let roots := [RtoC 0; RtoC (3 / 2); RtoC (- (3 / 2)); RtoC (1 / 2); RtoC (- (1 / 2))] in
  let start := map (fun r => r + RtoC (1 / 30))%C roots in
  forall k, (k < 2)%nat -> within (11e-12) roots (fst (nth k (seq_scan (fun init w => images2 ea_solver (0.5 * sqrt 5) (1 / 2) w init) start [RtoC 0; RtoC 0]) ([], []))).
Proof.
  intros roots start. assert (G : 2 < sqrt 5) by (rewrite <- (sqrt_square 2) by lra; apply sqrt_lt_1; lra).
  assert (Q : sqrt 5 * sqrt 5 = 5) by (apply sqrt_sqrt; lra). assert (B : 0.5 * sqrt 5 * (0.5 * sqrt 5) = 5 / 4) by lra.
  assert (V : sqrt (5 / 4 - 1) = 1 / 2) by (replace (5 / 4 - 1) with (1 / 2 * (1 / 2)) by lra; apply sqrt_square; lra).
  assert (U : sqrt (5 / 4 + 1) = 3 / 2) by (replace (5 / 4 + 1) with (3 / 2 * (3 / 2)) by lra; apply sqrt_square; lra).
  assert (S : splits (poly_coeffs_binary (RtoC 0) (0.5 * sqrt 5) (1 / 2)) roots).
  { pose proof (c_splits _ G) as S. rewrite (c_solver (sqrt 5)), B in S. unfold central_roots, central_coeffs in S. rewrite U, V, (c_w (sqrt 5)) in S. replace (1 / (1 + 1)) with (1 / 2) in S by lra. exact S. }
  assert (H0 : hd (RtoC 0) (poly_coeffs_binary (RtoC 0) (0.5 * sqrt 5) (1 / 2)) <> RtoC 0).
  { unfold poly_coeffs_binary. cbn [hd]. rewrite Cconj_RtoC, <- !RtoC_mult, <- RtoC_opp, <- RtoC_plus. apply RtoC_neq0. rewrite B. lra. }
  assert (Sep : separated (1 / 2) roots).
  { intros i j Hi Hj N. unfold roots in *. cbn [length] in Hi, Hj. do 5 (destruct i as [|i]; [do 5 (destruct j as [|j]; [try (now elim N); cbn [nth]; rewrite <- RtoC_minus, Cmod_R; unfold Rabs; destruct (Rcase_abs _); lra|]); exfalso; lia|]). exfalso; lia. }
  assert (Tr : root_tracks (0.5 * sqrt 5) (1 / 2) (1 / 2) [RtoC 0; RtoC 0] [roots; roots]).
  { split; auto. split.
    - intros [|[|k]] Hk; cbn [length] in Hk; [| |exfalso; lia]; cbn [nth]; auto.
    - intros [|k] Hk; cbn [length] in Hk; [|exfalso; lia]. cbn [nth]. split; auto. intros i _. replace (nth i roots (RtoC 0) - nth i roots (RtoC 0))%C with (RtoC 0) by ring. rewrite Cmod_0. lra. }
  destruct (C77_tracking _ _ (1 / 2) _ _ start ltac:(lra) Tr) as (_ & K).
  - cbn [nth]. split; [unfold start; apply map_length|]. intros i Hi. unfold start. rewrite (nth_map_lt _ _ _ (RtoC 0)) by auto.
    replace (nth i roots (RtoC 0) + RtoC (1 / 30) - nth i roots (RtoC 0))%C with (RtoC (1 / 30)) by ring. rewrite Cmod_R, Rabs_pos_eq; lra.
  - intros k Hk. specialize (K k Hk). destruct k as [|[|k]]; [exact K|exact K|exfalso; lia].
Qed.
