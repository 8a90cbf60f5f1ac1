(** Root finder: properties C14-C18. *)
From Coq Require Import Reals List Bool Arith ZArith Lia Lra.
From Coquelicot Require Import Complex.
From Verif Require Import Base_R Base_List Base_C M_Utils M_Assembly M_PolySolver S_Poly P_Poly P_PolyRoots P_PolySolver.
Import ListNotations.
Local Open Scope R_scope.
Local Open Scope C_scope.

(** ** C14 *)
(** At most max_iter steps; the result is that many steps from the start; it never stops with an unmarked
    estimate before the budget is used, and never continues once all are marked. *)
Theorem C14_terminates : forall cs tol max_iter st,
  exists it st', ea_loop cs (polyder_coeffs cs) (eps64 * 10) tol max_iter st = (it, st') /\
  (it <= max_iter)%nat /\ length st' = length st /\
  st' = Nat.iter it (ea_body cs (polyder_coeffs cs) (eps64 * 10) tol) st /\
  (forall k, (k < it)%nat -> exists i, (i < length st)%nat /\
     snd (nth i (Nat.iter k (ea_body cs (polyder_coeffs cs) (eps64 * 10) tol) st) (None, false)) = false) /\
  ((it < max_iter)%nat -> forall i, (i < length st)%nat -> snd (nth i st' (None, false)) = true).
Proof.
  intros. pose proof (ea_loop_spec cs (polyder_coeffs cs) (eps64 * 10) tol max_iter st) as (A & B & D & F).
  destruct (ea_loop cs (polyder_coeffs cs) (eps64 * 10) tol max_iter st) as [it st']. cbn [fst snd] in *.
  exists it, st'. split; [reflexivity|]. split; [exact A|]. split; [rewrite B; apply ea_iter_length|].
  split; [exact B|]. split.
  - intros k Hk. specialize (D k Hk).
    rewrite <- (ea_iter_length cs (polyder_coeffs cs) (eps64 * 10) tol k st).
    change (Nat.iter k (ea_body cs (polyder_coeffs cs) (eps64 * 10) tol) st) with (ea_iter cs (polyder_coeffs cs) (eps64 * 10) tol k st).
    apply forallb_false_nth. exact D.
  - intros Hit i Hi. specialize (F Hit). rewrite forallb_forall in F. rewrite B. apply F. apply nth_In.
    rewrite ea_iter_length. exact Hi.
Qed.
(** Once marked, value and mark never change again. *)
Theorem C14_frozen : forall cs tol st i r j k, (i < length st)%nat -> (j <= k)%nat ->
  nth i (Nat.iter j (ea_body cs (polyder_coeffs cs) (eps64 * 10) tol) st) (None, false) = (r, true) ->
  nth i (Nat.iter k (ea_body cs (polyder_coeffs cs) (eps64 * 10) tol) st) (None, false) = (r, true).
Proof. intros cs tol st i r j k. exact (ea_iter_frozen cs (polyder_coeffs cs) (eps64 * 10) tol st i r j k). Qed.
(** What a fresh mark certifies: the estimate moved by at most tol, and the move solves either the
    Ehrlich-Aberth or the Newton equation at the previous estimate. *)
Theorem C14_mark_certificate : forall cs tol st i r r', (2 <= length cs)%nat -> (i < length st)%nat ->
  nth i st (None, false) = (r, false) ->
  nth i (ea_body cs (polyder_coeffs cs) (eps64 * 10) tol st) (None, false) = (r', true) ->
  exists others (z z' : C), map fst st = map Some others /\ r = Some z /\ r' = Some z' /\ (Cmod (z' - z)%C <= tol)%R /\
    ((peval (pderiv cs) z - peval cs z * sumC (map (fun w => if Ceq_dec (z - w) 0 then RtoC 0 else 1 / (z - w)) others)) * (z - z') = peval cs z
     \/ (peval (pderiv cs) z * (z - z') = peval cs z /\ peval (pderiv cs) z <> 0)).
Proof. exact mark_certificate. Qed.
Theorem C14_output_length : forall cs init tol max_iter, (2 <= length cs)%nat ->
  exists out, poly_roots_EA cs init tol max_iter = Ok out /\
    length out = match init with None => (length cs - 1)%nat | Some i => length i end.
Proof. exact output_length. Qed.
(** z - 3 started from 0: one step, marked after the second. *)
Example C14_example : exists st', ea_loop [RtoC 1; RtoC (-3)] (polyder_coeffs [RtoC 1; RtoC (-3)]) (eps64 * 10) default_tol 100
    [(Some (RtoC 0), false)] = (2%nat, st') /\ st' = [(Some (RtoC 3), true)].
Proof. exact linear_run. Qed.

(** ** C15 *)
(** A warm start made of exact simple roots is returned: each within the 10*tol cleaning band, and
    bit-identical unless cleaning applies. *)
Theorem C15_exact_roots_returned_partial : forall cs init tol m, (2 <= length cs)%nat -> (0 <= tol)%R -> (1 <= m)%nat ->
  (forall z : C, In z init -> peval cs z = 0 /\ peval (pderiv cs) z <> 0) ->
  exists out, poly_roots_EA cs (Some init) tol m = Ok out /\ length out = length init /\
    forall i (z : C), nth_error init i = Some z -> exists w, nth_error out i = Some (Some w) /\ (Cmod (w - z)%C <= 10 * tol)%R /\
      (Im z = 0%R \/ (10 * tol <= Rabs (Im z))%R \/ (exists c, In c cs /\ (10 * tol <= Rabs (Im c))%R) -> w = z).
Proof. exact all_exact. Qed.
(** One exact simple root among arbitrary other guesses is never perturbed. *)
Theorem C15_exact_root_kept_partial : forall cs init tol m i (z : C), (2 <= length cs)%nat -> (0 <= tol)%R -> (1 <= m)%nat ->
  nth_error init i = Some z -> peval cs z = 0 -> peval (pderiv cs) z <> 0 ->
  exists out w, poly_roots_EA cs (Some init) tol m = Ok out /\ nth_error out i = Some (Some w) /\ (Cmod (w - z)%C <= 10 * tol)%R /\
      (Im z = 0%R \/ (10 * tol <= Rabs (Im z))%R \/ (exists c, In c cs /\ (10 * tol <= Rabs (Im c))%R) -> w = z).
Proof. exact one_exact. Qed.
(** The claim without "simple" is false: exact double roots turn into NaN. *)
Theorem C15_multiple_roots_refuted : forall m, (1 <= m)%nat ->
  splits [RtoC 1; RtoC 0; RtoC 0] [RtoC 0; RtoC 0] /\
  forall i, nth i (poly_roots_EA_from [RtoC 1; RtoC 0; RtoC 0] [RtoC 0; RtoC 0] default_tol m) None = None.
Proof. exact double_root_nan. Qed.
(** Exactly-unchanged is false too: cleaning merges a true conjugate pair into 0, which is no root. *)
Theorem C15_cleaning_refuted : forall m, (1 <= m)%nat ->
  exists out, poly_roots_EA [RtoC 1; RtoC 0; RtoC (close_pair * close_pair)] (Some [(0, close_pair)%R : C; (0, - close_pair)%R : C]) default_tol m = Ok out /\
    out = [Some (RtoC 0); Some (RtoC 0)] /\
    splits [RtoC 1; RtoC 0; RtoC (close_pair * close_pair)] [(0, close_pair)%R : C; (0, - close_pair)%R : C] /\
    peval [RtoC 1; RtoC 0; RtoC (close_pair * close_pair)] 0 <> 0.
Proof. exact cleaned_away. Qed.
(** Two equal guesses stay equal forever: such a warm start can only succeed on a polynomial with a multiple root. *)
Theorem C15_coincident_guesses : forall cs init tol m i j rs, (i < length init)%nat -> (j < length init)%nat -> i <> j ->
  nth i init (RtoC 0) = nth j init (RtoC 0) -> hd (RtoC 0) cs <> 0 ->
  poly_roots_EA_from cs init tol m = map Some rs -> splits cs rs ->
  exists z : C, peval cs z = 0 /\ peval (pderiv cs) z = 0.
Proof. exact coincident_never. Qed.
(** Real guesses for a real polynomial never reach a non-real root. *)
Theorem C15_real_guesses_stay_real : forall cs init tol m i (z : C), (forall c, In c cs -> Im c = 0%R) ->
  (forall c, In c init -> Im c = 0%R) ->
  nth i (poly_roots_EA_from cs init tol m) None = Some z -> Im z = 0%R.
Proof. exact real_stays. Qed.
Example C15_example : exists out, poly_roots_EA [RtoC 1; RtoC (-3); RtoC 2] (Some [RtoC 1; RtoC 2]) default_tol 100 = Ok out /\
  nth_error out 0 = Some (Some (RtoC 1)) /\ nth_error out 1 = Some (Some (RtoC 2)).
Proof.
  destruct (C15_exact_roots_returned_partial [RtoC 1; RtoC (-3); RtoC 2] [RtoC 1; RtoC 2] default_tol 100) as (out & A & _ & B).
  - simpl; lia.
  - apply Rlt_le, Rinv_0_lt_compat, pow_lt; lra.
  - lia.
  - intros z [<-|[<-|[]]]; split.
    + unfold peval; cbn [length Cpow]. apply Ceq; simpl; ring.
    + unfold pderiv, peval; cbn [length Cpow INR]. intros E. apply (f_equal fst) in E. simpl in E. lra.
    + unfold peval; cbn [length Cpow]. apply Ceq; simpl; ring.
    + unfold pderiv, peval; cbn [length Cpow INR]. intros E. apply (f_equal fst) in E. simpl in E. lra.
  - exists out. split; [exact A|].
    destruct (B 0%nat (RtoC 1) eq_refl) as (w & W1 & _ & W2). destruct (B 1%nat (RtoC 2) eq_refl) as (v & V1 & _ & V2).
    rewrite W1, V1, W2, V2; [auto|left; reflexivity|left; reflexivity].
Qed.

(** ** C16 *)
Theorem C16_cauchy_bound : forall cs (z : C), (2 <= length cs)%nat -> (eps64 <= Cmod (hd (RtoC 0) cs))%R ->
  peval cs z = 0 -> (Cmod z < cauchy_radius cs)%R.
Proof. exact cauchy_bound. Qed.
(** Below the floor the circle misses roots. *)
Theorem C16_tiny_leading_refuted : exists cs (z : C), hd (RtoC 0) cs <> 0 /\ length cs = 2%nat /\ peval cs z = 0 /\ (cauchy_radius cs < Cmod z)%R.
Proof. exact cauchy_fails. Qed.
(** One pairwise-distinct starting point per root, all on that circle. *)
Theorem C16_starting_points : forall cs, (2 <= length cs)%nat ->
  length (initial_circle cs) = (length cs - 1)%nat /\ NoDup (initial_circle cs) /\
  forall z, In z (initial_circle cs) -> Cmod z = cauchy_radius cs.
Proof. exact circle_spec. Qed.
Example C16_example : (Cmod (RtoC 2) < cauchy_radius [RtoC 1; RtoC (-3); RtoC 2])%R.
Proof.
  apply C16_cauchy_bound.
  - simpl; lia.
  - simpl. rewrite Cmod_R, Rabs_R1. pose proof eps64_lt1. lra.
  - unfold peval; cbn [length Cpow]. apply Ceq; simpl; ring.
Qed.
(** the circle of that polynomial, with roots one and two, has radius four *)
Theorem C16_radius : cauchy_radius [RtoC 1; RtoC (-3); RtoC 2] = 4%R.
Proof.
  unfold cauchy_radius. cbn [nth tl map jmax fold_left]. rewrite !Cmod_R, Rabs_R1, (Rabs_left (-3)), (Rabs_pos_eq 2) by lra. pose proof eps64_lt1. rewrite (Rmax_left 1) by lra.
  unfold Rmax. repeat destruct (Rle_dec _ _); lra.
Qed.

(** ** C17 *)
(** [cs] is a list of coefficient curves with tangents [dc] at t; z is any differentiable root branch. *)
Theorem C17_root_tangent : forall (cs : list (R -> C)) dc (z : R -> C) t (a : C), (2 <= length cs)%nat ->
  Forall2 (fun c l => cderiv c t l) cs dc -> cderiv z t a ->
  (exists d, (0 < d)%R /\ forall h, (Rabs h < d)%R -> peval (map (fun c => c (t + h)%R) cs) (z (t + h)%R) = 0) ->
  peval (pderiv (map (fun c => c t) cs)) (z t) <> 0 ->
  a = poly_roots_tangent (map (fun c => c t) cs) dc (z t).
Proof. exact implicit_tangent. Qed.
Lemma cderiv_RtoC t : cderiv RtoC t 1.
Proof.
  intros e He. exists 1%R. split; [lra|]. intros h _.
  replace (RtoC (t + h) - RtoC t - RtoC h * 1) with (RtoC 0) by (apply Ceq; simpl; ring).
  rewrite Cmod_0. apply Rmult_le_pos; [lra|apply Rabs_pos].
Qed.
(** z^2 - t^2 at t = 3, branch z(t) = t *)
Example C17_example : poly_roots_tangent [RtoC 1; RtoC 0; RtoC (-1) * (RtoC 3 * RtoC 3)] [RtoC 0; RtoC 0; 0 * (RtoC 3 * RtoC 3) + RtoC (-1) * (1 * RtoC 3 + RtoC 3 * 1)] (RtoC 3) = 1.
Proof.
  symmetry. apply (C17_root_tangent [fun _ => RtoC 1; fun _ => RtoC 0; fun t => RtoC (-1) * (RtoC t * RtoC t)] _ RtoC 3 1).
  - simpl; lia.
  - repeat constructor; try apply cderiv_const.
    apply (cderiv_mult (fun _ => RtoC (-1)) (fun x => RtoC x * RtoC x)); [apply cderiv_const|].
    apply (cderiv_mult RtoC RtoC); apply cderiv_RtoC.
  - apply cderiv_RtoC.
  - exists 1%R. split; [lra|]. intros h _. cbn [map]. unfold peval; cbn [length Cpow]. apply Ceq; simpl; ring.
  - cbn [map]. unfold pderiv, peval; cbn [length Cpow INR]. intros E. apply (f_equal fst) in E. simpl in E. lra.
Qed.

(** ** C18 *)
Theorem C18_batch_cold : forall ncoeffs rows, (2 <= ncoeffs)%nat -> (forall r, In r rows -> length r = ncoeffs) ->
  exists out, poly_roots ncoeffs (concat rows) None = Ok out /\ length out = (length rows * (ncoeffs - 1))%nat /\
  forall b row, nth_error rows b = Some row -> exists single, poly_roots_EA row None default_tol default_max_iter = Ok single /\
    forall k, (k < ncoeffs - 1)%nat -> nth (b * (ncoeffs - 1) + k) out None = nth k single None.
Proof. exact batch_cold. Qed.
Theorem C18_batch_warm : forall ncoeffs (pairs : list (list C * list C)), (2 <= ncoeffs)%nat ->
  (forall p, In p pairs -> length (fst p) = ncoeffs /\ length (snd p) = (ncoeffs - 1)%nat) ->
  exists out, poly_roots ncoeffs (concat (map fst pairs)) (Some (concat (map snd pairs))) = Ok out /\
  length out = (length pairs * (ncoeffs - 1))%nat /\
  forall b p, nth_error pairs b = Some p -> exists single, poly_roots_EA (fst p) (Some (snd p)) default_tol default_max_iter = Ok single /\
    forall k, (k < ncoeffs - 1)%nat -> nth (b * (ncoeffs - 1) + k) out None = nth k single None.
Proof. exact batch_warm. Qed.
Theorem C18_bad_warm_start : forall ncoeffs flat r, (2 <= ncoeffs)%nat ->
  length r <> (length flat / ncoeffs * (ncoeffs - 1))%nat -> poly_roots ncoeffs flat (Some r) = Raise ValueError.
Proof. exact batch_bad. Qed.
Example C18_example : exists out, poly_roots 3 [RtoC 1; RtoC (-3); RtoC 2; RtoC 1; RtoC 0; RtoC 1] None = Ok out /\ length out = 4%nat.
Proof.
  destruct (C18_batch_cold 3 [[RtoC 1; RtoC (-3); RtoC 2]; [RtoC 1; RtoC 0; RtoC 1]]) as (out & A & B & _).
  - lia.
  - intros r [<-|[<-|[]]]; reflexivity.
  - exists out. split; [exact A|exact B].
Qed.

Print Assumptions C14_terminates.
Print Assumptions C14_frozen.
Print Assumptions C14_mark_certificate.
Print Assumptions C14_output_length.
Print Assumptions C15_exact_roots_returned_partial.
Print Assumptions C15_exact_root_kept_partial.
Print Assumptions C15_multiple_roots_refuted.
Print Assumptions C15_cleaning_refuted.
Print Assumptions C15_coincident_guesses.
Print Assumptions C15_real_guesses_stay_real.
Print Assumptions C16_cauchy_bound.
Print Assumptions C16_tiny_leading_refuted.
Print Assumptions C16_starting_points.
Print Assumptions C17_root_tangent.
Print Assumptions C18_batch_cold.
Print Assumptions C18_batch_warm.
Print Assumptions C18_bad_warm_start.
