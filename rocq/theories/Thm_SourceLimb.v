(** Sampling the images of the source limb: property C59. *)
From Coq Require Import Reals List Bool Arith ZArith Lia Lra Permutation Sorted.
From Coquelicot Require Import Complex Rcomplements.
From Verif Require Import Base_R Base_List Base_C M_Utils M_PointSource M_SourceLimb S_SourceLimb P_SourceLimb.
Import ListNotations.
Local Open Scope R_scope.

(** every output column is the solver's answer at its limb angle, with its own masks and parities,
    reordered by one permutation; positions differ by at most 1e-9, and only where two entries coincided *)
Theorem C59_columns : forall step det w0 rho kick jitter nb,
  (forall init w, length (fst (step init w)) = nb /\ length (snd (step init w)) = nb) ->
  forall npts niter out, (forall i j, Rabs (jitter i j) <= 1e-9) ->
  images_of_source_limb step det w0 rho kick jitter npts niter = Ok out ->
  exists raw : list (list C), length raw = length out /\
  forall j, (j < length out)%nat ->
  exists p ms ps, Permutation p (seq 0 nb) /\
    solver_column step det w0 rho (s_th (nth_s out j)) (nth j raw []) ms ps /\
    s_mask (nth_s out j) = map (fun k => nth k ms false) p /\
    s_par (nth_s out j) = map (fun k => nth k ps 0) p /\
    length (s_z (nth_s out j)) = nb /\
    forall i, (i < nb)%nat -> exists d, Rabs d <= 1e-9 /\
      nth i (s_z (nth_s out j)) (RtoC 0) = (nth (nth i p 0%nat) (nth j raw []) (RtoC 0) + RtoC d)%C /\
      (d <> 0 -> exists i' j', (i' < nb)%nat /\ (j' < length out)%nat /\ (i', j') <> (nth i p 0%nat, j) /\
         nth i' (nth j' raw []) (RtoC 0) = nth (nth i p 0%nat) (nth j raw []) (RtoC 0)).
Proof. exact limb_columns. Qed.

(** the angles increase strictly from -pi to below pi *)
Theorem C59_angles : forall step det w0 rho kick jitter nb,
  (forall init w, length (fst (step init w)) = nb /\ length (snd (step init w)) = nb) ->
  forall npts niter out, INR npts <= 1e9 ->
  images_of_source_limb step det w0 rho kick jitter npts niter = Ok out ->
  StronglySorted Rlt (map s_th out) /\ List.Forall (fun th => - PI <= th < PI) (map s_th out).
Proof. exact limb_angles. Qed.

(** the number of samples *)
Theorem C59_count_partial : forall step det w0 rho kick jitter nb,
  (forall init w, length (fst (step init w)) = nb /\ length (snd (step init w)) = nb) ->
  forall npts niter out, (2 <= niter)%nat ->
  images_of_source_limb step det w0 rho kick jitter npts niter = Ok out ->
  length out = (npts / 2 + niter * (npts / 2 / niter))%nat.
Proof. exact limb_count. Qed.
Theorem C59_count_at_most_partial : forall step det w0 rho kick jitter nb,
  (forall init w, length (fst (step init w)) = nb /\ length (snd (step init w)) = nb) ->
  forall npts niter out, (2 <= niter)%nat ->
  images_of_source_limb step det w0 rho kick jitter npts niter = Ok out ->
  (length out <= npts)%nat /\ (npts < length out + niter + 1)%nat.
Proof.
  intros step det w0 rho kick jitter nb Hs npts niter out Hn H.
  rewrite (limb_count step det w0 rho kick jitter nb Hs npts niter out Hn H).
  pose proof (Nat.div_mod npts 2). pose proof (Nat.mod_upper_bound npts 2).
  pose proof (Nat.div_mod (npts / 2) niter). pose proof (Nat.mod_upper_bound (npts / 2) niter). lia.
Qed.
(** the documented target is not met: with the default 150 points and 10 passes there are 145 samples *)
Theorem C59_target_refuted : forall step det w0 rho kick jitter nb,
  (forall init w, length (fst (step init w)) = nb /\ length (snd (step init w)) = nb) ->
  exists out, images_of_source_limb step det w0 rho kick jitter 150 10 = Ok out /\ length out = 145%nat.
Proof.
  intros step det w0 rho kick jitter nb Hs. eexists. split; [reflexivity|].
  apply (limb_count step det w0 rho kick jitter nb Hs 150 10); [lia|reflexivity].
Qed.

(** one refinement pass: at most one new sample per interval, at the mid-angle, solved from the
    images on its left; the intervals chosen are those where some real image moves farthest *)
Theorem C59_refinement : forall step det w0 rho kick eps n l nb, l <> [] ->
  (forall a b, Cmod (kick a b) <= eps) ->
  List.Forall (fun s => length (s_z s) = nb /\ length (s_mask s) = nb) l ->
  exists fl, refined (fun s t m =>
        (s_th m = (s_th s + s_th t) / 2 /\ solver_column step det w0 rho (s_th m) (s_z m) (s_mask m) (s_par m)) /\
        exists init, step (Some init) (limb_at w0 rho (s_th m)) = (s_z m, s_mask m) /\ length init = length (s_z s) /\
          forall i, (i < length init)%nat -> Cmod (nth i init (RtoC 0) - nth i (s_z s) (RtoC 0))%C <= eps)
      l (refine step det w0 rho kick n l) fl /\
    length fl = (length l - 1)%nat /\
    count_true fl = Nat.min n (length l - 1) /\
    (forall i j di dj, nth i fl false = true -> (S j < length l)%nat -> nth j fl false = false ->
       largest_move (s_z (nth_s l i)) (s_z (nth_s l (S i))) (s_mask (nth_s l i)) (s_mask (nth_s l (S i))) di ->
       largest_move (s_z (nth_s l j)) (s_z (nth_s l (S j))) (s_mask (nth_s l j)) (s_mask (nth_s l (S j))) dj -> dj <= di).
Proof. exact refine_refined. Qed.

(** neighbouring columns are matched: each entry is the nearest one among the entries not yet taken *)
Theorem C59_continuity : forall step det w0 rho kick jitter nb,
  (forall init w, length (fst (step init w)) = nb /\ length (snd (step init w)) = nb) ->
  forall npts niter out, images_of_source_limb step det w0 rho kick jitter npts niter = Ok out ->
  forall j, (S j < length out)%nat -> forall i k, (i <= k)%nat -> (k < nb)%nat ->
  Cmod (nth i (s_z (nth_s out (S j))) (RtoC 0) - nth i (s_z (nth_s out j)) (RtoC 0))%C <=
  Cmod (nth k (s_z (nth_s out (S j))) (RtoC 0) - nth i (s_z (nth_s out j)) (RtoC 0))%C.
Proof. exact limb_continuity. Qed.

(** if the columns are shuffled samples of branches that move less than the distance to any other
    branch, every row of the result follows one branch, mask and parity included *)
Theorem C59_branches : forall nb (G : nat -> nat -> C * (bool * R)) l, l <> [] ->
  List.Forall (fun s => length (s_z s) = nb /\ length (s_mask s) = nb /\ length (s_par s) = nb) l ->
  (forall j, (j < length l)%nat ->
     Permutation (combine (s_z (nth_s l j)) (combine (s_mask (nth_s l j)) (s_par (nth_s l j)))) (map (fun i => G i j) (seq 0 nb))) ->
  (forall i k, (i < nb)%nat -> (k < nb)%nat -> k <> i -> fst (G k 0%nat) <> fst (G i 0%nat)) ->
  (forall j i k, (S j < length l)%nat -> (i < nb)%nat -> (k < nb)%nat -> k <> i ->
     Cmod (fst (G i (S j)) - fst (G i j))%C < Cmod (fst (G k (S j)) - fst (G i j))%C) ->
  exists sg, Permutation sg (seq 0 nb) /\
  forall j i, (j < length l)%nat -> (i < nb)%nat ->
    let s := nth_s (permute_images l) j in
    nth i (combine (s_z s) (combine (s_mask s) (s_par s))) (RtoC 0, (false, 0)) = G (nth i sg 0%nat) j.
Proof. exact follow_branches. Qed.

(** too few points, or no passes *)
Theorem C59_errors : forall step det w0 rho kick jitter npts niter,
  ((npts < 2)%nat -> images_of_source_limb step det w0 rho kick jitter npts niter = Raise ValueError) /\
  ((2 <= npts)%nat -> niter = 0%nat -> images_of_source_limb step det w0 rho kick jitter npts niter = Raise ZeroDivisionError) /\
  ((2 <= npts)%nat -> (0 < niter)%nat -> exists out, images_of_source_limb step det w0 rho kick jitter npts niter = Ok out).
Proof.
  intros. unfold images_of_source_limb. split; [|split].
  - intros H. rewrite Nat.div_small by auto. reflexivity.
  - intros H1 ->. destruct (Nat.eqb_spec (npts / 2) 0) as [E|E]; [apply Nat.div_small_iff in E; lia|]. reflexivity.
  - intros H1 H2. destruct (Nat.eqb_spec (npts / 2) 0) as [E|E]; [apply Nat.div_small_iff in E; lia|].
    destruct (Nat.eqb_spec niter 0); [lia|]. eexists; reflexivity.
Qed.

(** a single lens: two images per column *)
Example C59_case : exists out,
  images_of_source_limb (fun _ w => images1 w) det_jac1 (RtoC (1 / 2)) (1 / 10) (fun _ _ => RtoC 0) (fun _ _ => 0) 8 2 = Ok out /\
  length out = 8%nat /\ StronglySorted Rlt (map s_th out).
Proof.
  eexists. split; [reflexivity|]. split.
  - apply (limb_count (fun _ w => images1 w) det_jac1 (RtoC (1 / 2)) (1 / 10) (fun _ _ => RtoC 0) (fun _ _ => 0) 2 ltac:(auto) 8 2); [lia|reflexivity].
  - apply (limb_angles (fun _ w => images1 w) det_jac1 (RtoC (1 / 2)) (1 / 10) (fun _ _ => RtoC 0) (fun _ _ => 0) 2 ltac:(auto) 8 2); [|reflexivity].
    rewrite INR_IZR_INZ. simpl. lra.
Qed.
(** two branches at 0 and 1 drifting to the right, listed in opposite order in the second column *)
Example C59_branch_case : exists sg, Permutation sg [0; 1]%nat /\ forall j i, (j < 2)%nat -> (i < 2)%nat ->
  let s := nth_s (permute_images [Sample 0 [RtoC 0; RtoC 1] [true; false] [1; -1]; Sample 1 [RtoC 1.1; RtoC 0.1] [false; true] [-1; 1]]) j in
  nth i (combine (s_z s) (combine (s_mask s) (s_par s))) (RtoC 0, (false, 0)) =
  (RtoC (INR (nth i sg 0%nat) + 0.1 * INR j), ((nth i sg 0 =? 0)%nat, if (nth i sg 0 =? 0)%nat then 1 else -1)).
Proof.
  assert (D : forall x y, Cmod (RtoC x - RtoC y)%C = Rabs (x - y)) by (intros; rewrite <- RtoC_minus; apply Cmod_R).
  refine (C59_branches 2 (fun i j => (RtoC (INR i + 0.1 * INR j), ((i =? 0)%nat, if (i =? 0)%nat then 1 else -1)))
    [Sample 0 [RtoC 0; RtoC 1] [true; false] [1; -1]; Sample 1 [RtoC 1.1; RtoC 0.1] [false; true] [-1; 1]] _ _ _ _ _).
  - discriminate.
  - repeat constructor.
  - intros j Hj. simpl in Hj. destruct j as [|[|]]; [| |lia]; cbn [nth_s nth s_z s_mask s_par combine seq map Nat.eqb INR].
    + replace (0 + 0.1 * 0) with 0 by lra. replace (1 + 0.1 * 0) with 1 by lra. auto.
    + replace (0 + 0.1 * 1) with 0.1 by lra. replace (1 + 0.1 * 1) with 1.1 by lra. apply perm_swap.
  - intros i k Hi Hk Hik E. cbn [fst] in E. apply RtoC_inj in E. destruct i as [|[|]], k as [|[|]]; simpl in E; try lia; lra.
  - intros j i k Hj Hi Hk Hik. simpl in Hj. replace j with 0%nat by lia. cbn [fst]. rewrite !D.
    destruct i as [|[|]], k as [|[|]]; simpl; try lia; unfold Rabs; repeat destruct Rcase_abs; lra.
Qed.

Print Assumptions C59_columns.
Print Assumptions C59_angles.
Print Assumptions C59_count_partial.
Print Assumptions C59_count_at_most_partial.
Print Assumptions C59_target_refuted.
Print Assumptions C59_refinement.
Print Assumptions C59_continuity.
Print Assumptions C59_branches.
Print Assumptions C59_errors.
