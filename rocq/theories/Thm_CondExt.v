(** Choosing between the multipole expansion and full integration: properties C54 - C58. *)
From Coq Require Import Reals List Bool Arith ZArith Lia Lra.
From Coquelicot Require Import Coquelicot.
From Verif Require Import Base_R Base_List Base_C M_Utils M_Assembly M_PointSource M_Multipole M_ExtSource M_CondExt
  S_PointSource S_Multipole P_Jets P_CondExt P_CondSpec P_CondLight P_CondCase.
Import ListNotations.
Local Open Scope R_scope.

(** ** C54: a position that is not integrated is within 0.01 of the point-source magnification *)
Theorem C54_mag_binary_close : forall solver p s q cfg u1 delta_c max_full chunk ws rho out,
  p_s p = Some s -> p_q p = Some q -> (Z.of_nat (length ws) <= max_full)%Z ->
  mag_binary solver p cfg u1 delta_c max_full chunk ws rho = Ok out ->
  length out = length ws /\ forall i, (i < length ws)%nat ->
    (if Reqb u1 0 then mag_uniform solver 2 p cfg rho (nth i ws (RtoC 0))
     else mag_limb_dark solver 2 p cfg u1 delta_c rho (nth i ws (RtoC 0))) = Ok (nth i out None) \/
    exists v m, nth i out None = Some v /\ mag_point_source solver 2 p (nth i ws (RtoC 0)) = Ok m /\ Rabs (v - m) < 1 / 100.
Proof. intros solver p s q cfg u1 dc mf chunk ws rho out Hs Hq. exact (mag_binary_close solver p cfg u1 dc mf chunk ws rho s q out Hs Hq). Qed.
Theorem C54_magnifications_close : forall solver full p s q ws rho out, p_s p = Some s -> p_q p = Some q ->
  magnifications solver full 2 p ws rho = Ok out ->
  length out = length ws /\ forall i, (i < length ws)%nat ->
    full (nth i ws (RtoC 0)) = Ok (nth i out None) \/
    exists v m, nth i out None = Some v /\ mag_point_source solver 2 p (nth i ws (RtoC 0)) = Ok m /\ Rabs (v - m) < 1 / 100.
Proof. intros solver full p s q ws rho out Hs Hq. exact (magnifications_binary solver full p ws rho s q out Hs Hq). Qed.
(** equal masses at distance 3/2, source at the centre, the five true images: accepted, magnification 81/175 + 128/225 + 128/63 *)
Example C54_case : forall cfg delta_c chunk max_full, chunk <> 0%nat ->
  mag_binary case_solver case_params cfg 0 delta_c max_full chunk [RtoC 0] 0 = Ok [Some (81 / 175 + 2 * (64 / 225) + 2 * (64 / 63))].
Proof. exact case_binary. Qed.

(** ** C55: the accuracy test is monotone in the source radius and never passes for other lens counts *)
Theorem C55_monotone : forall solver nlenses p rho rho' w, 0 <= rho' <= rho ->
  test_full solver nlenses p rho w = Ok true -> test_full solver nlenses p rho' w = Ok true.
Proof. intros solver nl p rho rho' w. exact (test_full_mono solver nl p rho rho' w). Qed.
Theorem C55_other_lenses : forall solver nlenses p rho w e1, p_e1 p = Some e1 -> nlenses <> 2%Z ->
  test_full solver nlenses p rho w = Ok false.
Proof. intros solver nl p rho w e1. exact (test_full_other solver nl p rho w e1). Qed.
Print Assumptions C55_other_lenses.
Example C55_case : test_full case_solver 2 (mkparams None None None None None (Some (3 / 4)) (Some (1 / 2)) None) 0 (RtoC 0) = Ok true.
Proof. now apply case_test. Qed.

(** ** C56: the quantities inside the test are what their names say *)
Theorem C56_derivatives_partial : forall a e1 (g : R -> C) t d, dC g t d -> off_masses (binary_mid a e1) (g t) ->
  dC (fun s => cl_f (closures2 a e1) (g s)) t (cl_fp (closures2 a e1) (g t) * d)%C /\
  dC (fun s => cl_fp (closures2 a e1) (g s)) t (cl_fpp (closures2 a e1) (g t) * d)%C.
Proof. exact derivs2. Qed.
Theorem C56_jacobian : forall a e1 z, off_masses (binary_mid a e1) z -> jacobian_det (binary_mid a e1) z (cond_J (closures2 a e1) z).
Proof. exact cond_J_det. Qed.
Print Assumptions C56_jacobian.
(** the ghost-image quantity returns to the image itself, and its Jacobian with it, exactly on true images *)
Theorem C56_true_image : forall a e1 w z, is_image (binary_mid a e1) w z ->
  cond_zhat (closures2 a e1) w z = Cconj z /\ cond_Jhat (closures2 a e1) w z = cond_J (closures2 a e1) z.
Proof. intros a e1 w z H. split; [now apply zhat_image|now apply Jhat_image]. Qed.
Print Assumptions C56_true_image.
Theorem C56_ghost : forall a e1 w z, off_masses (binary_mid a e1) z -> cond_zhat (closures2 a e1) w z = Cconj z ->
  is_image (binary_mid a e1) w z.
Proof. exact zhat_only_image. Qed.
Print Assumptions C56_ghost.
(** for three lenses the second closure is not the derivative of the first *)
Theorem C56_triple_refuted : forall a e1 e2 r (g : R -> C) t d, 1 - e1 - e2 <> 0 -> d <> RtoC 0 -> dC g t d ->
  off_masses (triple_mid a e1 e2 (- r)%C) (g t) ->
  ~ dC (fun s => cl_fp (closures3 a e1 e2 r) (g s)) t (cl_fpp (closures3 a e1 e2 r) (g t) * d)%C.
Proof. exact triple_fpp_wrong. Qed.
Print Assumptions C56_triple_refuted.
Example C56_case : off_masses (binary_mid (3 / 4) (1 / 2)) (RtoC (5 / 4)) /\ is_image (binary_mid (3 / 4) (1 / 2)) (RtoC 0) (RtoC (5 / 4)).
Proof. split; [|split]; try (apply real_off; lra). apply real_image_case. Qed.

(** ** C57: the planetary exclusion zone is not at the planetary caustic *)
Theorem C57_planetary_refuted : forall a u rho, 1 / 2 <= a -> 0 < u <= 1 / 11 -> 0 <= rho <= 1 / 5 ->
  exists e1 z, let L := binary_mid a e1 in
    0 < e1 / (1 - e1) < 1 / 100 /\ z = RtoC (a + u) /\ off_masses L z /\ jacobian_det L z 0 /\
    planetary_test 2 a e1 (lens_map L z) rho = true.
Proof.
  intros a u rho Ha Hu Hr. destruct (planetary_crossing a u rho Ha Hu Hr) as (A & B & D & E).
  exists (crossing_mass a u), (RtoC (a + u)). cbv zeta. auto.
Qed.
(** what the test does guarantee *)
Theorem C57_meaning_partial : forall a e1 w rho, 0 <= e1 < 1 -> 0 < a ->
  (planetary_test 2 a e1 w rho = true <->
   2 * (rho ^ 2 + 9 * (e1 / (1 - e1)) / (2 * a) ^ 2) < Cmod (w + RtoC (1 / (2 * a)))%C ^ 2).
Proof. exact planetary_meaning. Qed.
Print Assumptions C57_meaning_partial.

(** ** C58: calls, budgets and dispatch of the light-curve functions *)
Theorem C58_binary_missing : forall solver p cfg u1 delta_c max_full chunk ws rho, p_s p = None \/ p_q p = None ->
  mag_binary solver p cfg u1 delta_c max_full chunk ws rho = Raise ValueError.
Proof. exact mag_binary_missing. Qed.
Print Assumptions C58_binary_missing.
Theorem C58_triple_missing : forall solver p cfg u1 delta_c max_full chunk ws rho, p_s p = None \/ p_q p = None \/ p_q3 p = None ->
  mag_triple solver p cfg u1 delta_c max_full chunk ws rho = Raise KeyError.
Proof. exact mag_triple_missing. Qed.
Print Assumptions C58_triple_missing.
Theorem C58_magnifications_bad : forall solver full p ws rho,
  (p_s p = None \/ p_q p = None -> magnifications solver full 2 p ws rho = Raise KeyError) /\
  (forall nlenses, nlenses <> 1%Z -> nlenses <> 2%Z -> nlenses <> 3%Z -> magnifications solver full nlenses p ws rho = Raise ValueError).
Proof. intros solver full p ws rho. split. apply magnifications_missing2. intros nl. apply magnifications_other. Qed.
Print Assumptions C58_magnifications_bad.
Theorem C58_chunk_zero : forall solver p cfg u1 delta_c max_full ws rho s q, p_s p = Some s -> p_q p = Some q ->
  mag_binary solver p cfg u1 delta_c max_full 0 ws rho = Raise ZeroDivisionError.
Proof. exact mag_binary_chunk0. Qed.
Print Assumptions C58_chunk_zero.
(** with good parameters the only other exceptions are the integrator's *)
Theorem C58_raises : forall solver p cfg u1 delta_c max_full chunk ws rho s q e, p_s p = Some s -> p_q p = Some q -> chunk <> 0%nat ->
  mag_binary solver p cfg u1 delta_c max_full chunk ws rho = Raise e ->
  exists w, In w ws /\ (if Reqb u1 0 then mag_uniform solver 2 p cfg rho w else mag_limb_dark solver 2 p cfg u1 delta_c rho w) = Raise e.
Proof. exact mag_binary_raise. Qed.
Print Assumptions C58_raises.
Theorem C58_no_budget : forall solver p cfg cfg' u1 delta_c delta_c' chunk ws rho s q, p_s p = Some s -> p_q p = Some q -> chunk <> 0%nat ->
  mag_binary solver p cfg u1 delta_c 0 chunk ws rho = mag_binary solver p cfg' u1 delta_c' 0 1 ws rho /\
  exists out, mag_binary solver p cfg u1 delta_c 0 chunk ws rho = Ok out /\ length out = length ws.
Proof. exact mag_binary_nobudget. Qed.
Print Assumptions C58_no_budget.
(** three lenses: the first max_full positions are integrated *)
Theorem C58_triple_budget : forall solver p cfg u1 delta_c max_full chunk ws rho s q q3 out,
  p_s p = Some s -> p_q p = Some q -> p_q3 p = Some q3 ->
  mag_triple solver p cfg u1 delta_c max_full chunk ws rho = Ok out ->
  length out = length ws /\ forall i, (i < length ws)%nat -> (Z.of_nat i < max_full)%Z ->
    (if Reqb u1 0 then mag_uniform solver 3 p cfg rho (nth i ws (RtoC 0))
     else mag_limb_dark solver 3 p cfg u1 delta_c rho (nth i ws (RtoC 0))) = Ok (nth i out None).
Proof.
  intros solver p cfg u1 dc mf chunk ws rho s q q3 out Hs Hq H3 H.
  destruct (mag_triple_budget solver p cfg u1 dc mf chunk ws rho s q q3 out Hs Hq H3 H) as (L & X). split; auto.
  intros i Hi Hm. apply X. unfold py_prefix_len. destruct (Z.leb_spec 0 mf); lia.
Qed.
Print Assumptions C58_triple_budget.
(** [magnifications]: three lenses always integrate; the integrator and its limb darkening do not reach accepted positions *)
Theorem C58_magnifications_triple : forall solver full p ws rho s q q3 r3 psi,
  p_s p = Some s -> p_q p = Some q -> p_q3 p = Some q3 -> p_r3 p = Some r3 -> p_psi p = Some psi ->
  magnifications solver full 3 p ws rho = res_mapM full ws.
Proof. exact magnifications_triple. Qed.
Print Assumptions C58_magnifications_triple.
Theorem C58_magnifications_accepted_partial : forall solver p ws rho s q, p_s p = Some s -> p_q p = Some q ->
  exists (acc : list bool) (mu : list (option R)), length acc = length ws /\ length mu = length ws /\
    forall full out, magnifications solver full 2 p ws rho = Ok out -> forall i, (i < length ws)%nat ->
      if nth i acc false then nth i out None = nth i mu None else full (nth i ws (RtoC 0)) = Ok (nth i out None).
Proof. exact magnifications_accept. Qed.
(** one lens: x and -x are equally far from the lens, but only x gets the multipole value *)
Theorem C58_single_lens_refuted : forall solver p rho x, 0 <= rho -> 2 * rho < x ->
  (exists v, forall full, magnifications solver full 1 p [RtoC x] rho = Ok [v]) /\
  forall full, magnifications solver full 1 p [RtoC (- x)] rho = res_mapM full [RtoC (- x)].
Proof.
  intros solver p rho x Hr Hx. split.
  - destruct (magnifications_right solver p [RtoC x] rho) as (out & L & H). constructor; auto.
    destruct out as [|v [|]]; try discriminate. exists v. exact H.
  - intros full. apply magnifications_left. constructor; auto. simpl. lra.
Qed.
Print Assumptions C58_single_lens_refuted.
Example C58_case : forall full, magnifications case_solver full 2 case_params [RtoC 0] 0 = Ok [Some (81 / 175 + 2 * (64 / 225) + 2 * (64 / 63))].
Proof. exact case_magnifications. Qed.

Print Assumptions C54_mag_binary_close.
Print Assumptions C54_magnifications_close.
Print Assumptions C55_monotone.
Print Assumptions C56_derivatives_partial.
Print Assumptions C57_planetary_refuted.
Print Assumptions C58_magnifications_accepted_partial.
