(** The corrections of the multipole code are the Laplacians of the magnification along the image branch. *)
From Coq Require Import Reals List Bool Arith ZArith Lia Lra Factorial.
From Coquelicot Require Import Coquelicot.
From Verif Require Import Base_R Base_List Base_C S_PointSource S_Multipole M_Utils M_Coeffs M_PointSource M_Multipole P_Lens P_Jets.
Import ListNotations.
Local Open Scope R_scope.
Local Open Scope C_scope.

Section BRANCH.
Variables (L : lens_system) (w0 : C) (r : R) (a : nat -> nat -> R -> R -> C).
Hypothesis HB : image_branch L w0 r a.
Section POINT.
Variables (x y : R).
Hypothesis (Hx : (Rabs x < r)%R) (Hy : (Rabs y < r)%R).
Let z : C := a 0%nat 0%nat x y.
Let W2 := Wk L z 2.
Let W3 := Wk L z 3.
Let W4 := Wk L z 4.
Let W5 := Wk L z 5.
Let W6 := Wk L z 6.
Lemma NW : (1 - Cmod W2 ^ 2 <> 0)%R.
Proof. apply (W_ne1 L w0 r a HB); assumption. Qed.
Lemma mu0_mult (t : C) : RtoC (mu0 W2) * (t - W2 * Cconj W2 * t) = t.
Proof.
  unfold mu0. rewrite Cmult_conj. replace (t - RtoC (Cmod W2 * Cmod W2) * t) with (RtoC (1 - Cmod W2 ^ 2) * t)
    by (rewrite RtoC_minus; cbn [pow]; rewrite Rmult_1_r; ring).
  rewrite Cmult_assoc, <- RtoC_mult. replace (1 / (1 - Cmod W2 ^ 2) * (1 - Cmod W2 ^ 2))%R with 1%R by (field; apply NW). ring.
Qed.
Lemma solve10 : a 1%nat 0%nat x y = a10 W2.
Proof.
  pose proof (H10 L w0 r a HB x y Hx Hy) as A. cbn [ev G10] in A. fold z in A. fold W2 in A.
  set (u := a 1%nat 0%nat x y) in *.
  assert (A' : Cconj u = W2 * u + 1) by (rewrite A at 1; rewrite !Cconj_plus, !Cconj_conj, Cconj_RtoC; reflexivity).
  rewrite Cconj_mult, A' in A. unfold a10. transitivity (RtoC (mu0 W2) * (u - W2 * Cconj W2 * u)); [symmetry; apply mu0_mult|]. f_equal. rewrite A at 1. ring.
Qed.
Lemma solve01 : a 0%nat 1%nat x y = a01 W2.
Proof.
  pose proof (H01 L w0 r a HB x y Hx Hy) as B. cbn [ev G01] in B. fold z in B. fold W2 in B.
  set (v := a 0%nat 1%nat x y) in *.
  assert (B' : Cconj v = W2 * v - Ci) by (rewrite B at 1; rewrite !Cconj_plus, !Cconj_conj; apply Ceq; simpl; ring).
  rewrite Cconj_mult, B' in B. unfold a01. transitivity (RtoC (mu0 W2) * (v - W2 * Cconj W2 * v)); [symmetry; apply mu0_mult|]. rewrite <- (Cmult_assoc (RtoC (mu0 W2)) Ci). f_equal. rewrite B at 1. ring.
Qed.
Lemma solve20 : a 2%nat 0%nat x y = a20 W2 W3.
Proof.
  pose proof (H20 L w0 r a HB x y Hx Hy) as E. cbn [ev G20 q20] in E. fold z in E. fold W2 W3 W4 W5 W6 in E.
  rewrite ?solve10 in E. exact (akl_solve _ _ _ NW E).
Qed.
Lemma solve11 : a 1%nat 1%nat x y = a11 W2 W3.
Proof.
  pose proof (H11 L w0 r a HB x y Hx Hy) as E. cbn [ev G11 q11] in E. fold z in E. fold W2 W3 W4 W5 W6 in E.
  rewrite ?solve01, ?solve10 in E. exact (akl_solve _ _ _ NW E).
Qed.
Lemma solve02 : a 0%nat 2%nat x y = a02 W2 W3.
Proof.
  pose proof (H02 L w0 r a HB x y Hx Hy) as E. cbn [ev G02 q02] in E. fold z in E. fold W2 W3 W4 W5 W6 in E.
  rewrite ?solve01 in E. exact (akl_solve _ _ _ NW E).
Qed.
Lemma solve30 : a 3%nat 0%nat x y = a30 W2 W3 W4.
Proof.
  pose proof (H30 L w0 r a HB x y Hx Hy) as E. cbn [ev G30 q30] in E. fold z in E. fold W2 W3 W4 W5 W6 in E.
  rewrite ?solve10, ?solve20 in E. exact (akl_solve _ _ _ NW E).
Qed.
Lemma solve21 : a 2%nat 1%nat x y = a21 W2 W3 W4.
Proof.
  pose proof (H21 L w0 r a HB x y Hx Hy) as E. cbn [ev G21 q21] in E. fold z in E. fold W2 W3 W4 W5 W6 in E.
  rewrite ?solve01, ?solve10, ?solve11, ?solve20 in E. exact (akl_solve _ _ _ NW E).
Qed.
Lemma solve12 : a 1%nat 2%nat x y = a12 W2 W3 W4.
Proof.
  pose proof (H12 L w0 r a HB x y Hx Hy) as E. cbn [ev G12 q12] in E. fold z in E. fold W2 W3 W4 W5 W6 in E.
  rewrite ?solve01, ?solve02, ?solve10, ?solve11 in E. exact (akl_solve _ _ _ NW E).
Qed.
Lemma solve03 : a 0%nat 3%nat x y = a03 W2 W3 W4.
Proof.
  pose proof (H03 L w0 r a HB x y Hx Hy) as E. cbn [ev G03 q03] in E. fold z in E. fold W2 W3 W4 W5 W6 in E.
  rewrite ?solve01, ?solve02 in E. exact (akl_solve _ _ _ NW E).
Qed.
Lemma solve40 : a 4%nat 0%nat x y = a40 W2 W3 W4 W5.
Proof.
  pose proof (H40 L w0 r a HB x y Hx Hy) as E. cbn [ev G40 q40] in E. fold z in E. fold W2 W3 W4 W5 W6 in E.
  rewrite ?solve10, ?solve20, ?solve30 in E. exact (akl_solve _ _ _ NW E).
Qed.
Lemma solve31 : a 3%nat 1%nat x y = a31 W2 W3 W4 W5.
Proof.
  pose proof (H31 L w0 r a HB x y Hx Hy) as E. cbn [ev G31 q31] in E. fold z in E. fold W2 W3 W4 W5 W6 in E.
  rewrite ?solve01, ?solve10, ?solve11, ?solve20, ?solve21, ?solve30 in E. exact (akl_solve _ _ _ NW E).
Qed.
Lemma solve22 : a 2%nat 2%nat x y = a22 W2 W3 W4 W5.
Proof.
  pose proof (H22 L w0 r a HB x y Hx Hy) as E. cbn [ev G22 q22] in E. fold z in E. fold W2 W3 W4 W5 W6 in E.
  rewrite ?solve01, ?solve02, ?solve10, ?solve11, ?solve12, ?solve20, ?solve21 in E. exact (akl_solve _ _ _ NW E).
Qed.
Lemma solve13 : a 1%nat 3%nat x y = a13 W2 W3 W4 W5.
Proof.
  pose proof (H13 L w0 r a HB x y Hx Hy) as E. cbn [ev G13 q13] in E. fold z in E. fold W2 W3 W4 W5 W6 in E.
  rewrite ?solve01, ?solve02, ?solve03, ?solve10, ?solve11, ?solve12 in E. exact (akl_solve _ _ _ NW E).
Qed.
Lemma solve04 : a 0%nat 4%nat x y = a04 W2 W3 W4 W5.
Proof.
  pose proof (H04 L w0 r a HB x y Hx Hy) as E. cbn [ev G04 q04] in E. fold z in E. fold W2 W3 W4 W5 W6 in E.
  rewrite ?solve01, ?solve02, ?solve03 in E. exact (akl_solve _ _ _ NW E).
Qed.
Lemma solve50 : a 5%nat 0%nat x y = a50 W2 W3 W4 W5 W6.
Proof.
  pose proof (H50 L w0 r a HB x y Hx Hy) as E. cbn [ev G50 q50] in E. fold z in E. fold W2 W3 W4 W5 W6 in E.
  rewrite ?solve10, ?solve20, ?solve30, ?solve40 in E. exact (akl_solve _ _ _ NW E).
Qed.
Lemma solve41 : a 4%nat 1%nat x y = a41 W2 W3 W4 W5 W6.
Proof.
  pose proof (H41 L w0 r a HB x y Hx Hy) as E. cbn [ev G41 q41] in E. fold z in E. fold W2 W3 W4 W5 W6 in E.
  rewrite ?solve01, ?solve10, ?solve11, ?solve20, ?solve21, ?solve30, ?solve31, ?solve40 in E. exact (akl_solve _ _ _ NW E).
Qed.
Lemma solve32 : a 3%nat 2%nat x y = a32 W2 W3 W4 W5 W6.
Proof.
  pose proof (H32 L w0 r a HB x y Hx Hy) as E. cbn [ev G32 q32] in E. fold z in E. fold W2 W3 W4 W5 W6 in E.
  rewrite ?solve01, ?solve02, ?solve10, ?solve11, ?solve12, ?solve20, ?solve21, ?solve22, ?solve30, ?solve31 in E. exact (akl_solve _ _ _ NW E).
Qed.
Lemma solve23 : a 2%nat 3%nat x y = a23 W2 W3 W4 W5 W6.
Proof.
  pose proof (H23 L w0 r a HB x y Hx Hy) as E. cbn [ev G23 q23] in E. fold z in E. fold W2 W3 W4 W5 W6 in E.
  rewrite ?solve01, ?solve02, ?solve03, ?solve10, ?solve11, ?solve12, ?solve13, ?solve20, ?solve21, ?solve22 in E. exact (akl_solve _ _ _ NW E).
Qed.
Lemma solve14 : a 1%nat 4%nat x y = a14 W2 W3 W4 W5 W6.
Proof.
  pose proof (H14 L w0 r a HB x y Hx Hy) as E. cbn [ev G14 q14] in E. fold z in E. fold W2 W3 W4 W5 W6 in E.
  rewrite ?solve01, ?solve02, ?solve03, ?solve04, ?solve10, ?solve11, ?solve12, ?solve13 in E. exact (akl_solve _ _ _ NW E).
Qed.
Lemma solve05 : a 0%nat 5%nat x y = a05 W2 W3 W4 W5 W6.
Proof.
  pose proof (H05 L w0 r a HB x y Hx Hy) as E. cbn [ev G05 q05] in E. fold z in E. fold W2 W3 W4 W5 W6 in E.
  rewrite ?solve01, ?solve02, ?solve03, ?solve04 in E. exact (akl_solve _ _ _ NW E).
Qed.
End POINT.

(** the magnification as an expression *)
Definition eM : ex := EM (EJ (EA 1 0)) (EA 0 1).
Lemma wok_eM : wok eM.
Proof. cbn. tauto. Qed.
Definition Lap (e : ex) : ex := EP (Dx (Dx e)) (Dy (Dy e)).
Lemma wok_Lap e : wok e -> wok (Lap e).
Proof. intros H. split; [apply wok_Dx, wok_Dx; exact H|apply wok_Dy, wok_Dy; exact H]. Qed.
Lemma laplacian_ev e : wok e -> laplacian_on r (fun x y => snd (ev L w0 a e x y)) (fun x y => snd (ev L w0 a (Lap e) x y)).
Proof.
  intros W. exists (fun x y => snd (ev L w0 a (Dx e) x y)), (fun x y => snd (ev L w0 a (Dy e) x y)),
    (fun x y => snd (ev L w0 a (Dx (Dx e)) x y)), (fun x y => snd (ev L w0 a (Dy (Dy e)) x y)). intros x y Hx Hy.
  split; [|split; [|split; [|split]]].
  - apply (ev_dx L w0 r a HB e x y W Hx Hy).
  - apply (ev_dx L w0 r a HB (Dx e) x y (wok_Dx _ W) Hx Hy).
  - apply (ev_dy L w0 r a HB e x y W Hx Hy).
  - apply (ev_dy L w0 r a HB (Dy e) x y (wok_Dy _ W) Hx Hy).
  - reflexivity.
Qed.
Lemma shear_W (M : lens_system) (z : C) : shear M z = - Cconj (Wk M z 2).
Proof.
  unfold Wk. replace (wfac 2) with (- RtoC 1) by (unfold wfac; simpl; rewrite <- RtoC_opp; f_equal; ring).
  replace (- Cconj (- RtoC 1 * Wsum M z 2)) with (Cconj (Wsum M z 2)) by (apply Ceq; simpl; ring).
  induction M as [|[m p] M IH]; cbn [shear Wsum].
  - rewrite Cconj_RtoC. reflexivity.
  - rewrite IH, Cconj_plus, Cconj_div, Cconj_pow, Cconj_RtoC. reflexivity.
Qed.
Lemma jac_W (M : lens_system) (z : C) : off_masses M z -> jacobian_det M z (1 - Cmod (Wk M z 2) ^ 2)%R.
Proof.
  intros O. exists (jac_of (shear M z)). split; [apply lens_map_derivative; exact O|].
  rewrite det_jac_of, shear_W, Cmod_opp, Cmod_conj. simpl. ring.
Qed.
Lemma eM_val x y : (Rabs x < r)%R -> (Rabs y < r)%R -> snd (ev L w0 a eM x y) = mu0 (Wk L (a 0%nat 0%nat x y) 2).
Proof.
  intros Hx Hy. cbn [ev eM]. rewrite (solve10 x y Hx Hy), (solve01 x y Hx Hy). 
  pose proof (NW x y Hx Hy) as N. unfold a10, a01, mu0 in *. set (W := Wk L _ 2) in *.
  assert (E : (Cmod W ^ 2 = fst W * fst W + snd W * snd W)%R) by (rewrite <- Cmod_sq; simpl; ring).
  rewrite E in *. destruct W as [p q]. cbn [fst snd] in *. simpl. field. exact N.
Qed.
Lemma magnification_eM : magnification_on L r (a 0%nat 0%nat) (fun x y => snd (ev L w0 a eM x y)).
Proof.
  intros x y Hx Hy. exists (1 - Cmod (Wk L (a 0%nat 0%nat x y) 2) ^ 2)%R. split; [|split].
  - apply jac_W. apply (ib_image _ _ _ _ HB); assumption.
  - apply NW; assumption.
  - rewrite (eM_val x y Hx Hy). unfold mu0. field. apply NW; assumption.
Qed.
Ltac gen a := match goal with |- context [a ?m ?n ?x ?y] => let v := fresh "v" in generalize (a m n x y); intros v; destruct v end.
Lemma lap_mu2 x y : (Rabs x < r)%R -> (Rabs y < r)%R -> let z := a 0%nat 0%nat x y in
  (snd (ev L w0 a (Lap eM) x y) = 4 * mu2 (Wk L z 2) (Wk L z 3) (Wk L z 4))%R.
Proof.
  intros Hx Hy z. unfold mu2, z. rewrite <- ?(solve10 x y Hx Hy), <- ?(solve01 x y Hx Hy), <- ?(solve20 x y Hx Hy), <- ?(solve11 x y Hx Hy), <- ?(solve02 x y Hx Hy), <- ?(solve30 x y Hx Hy), <- ?(solve21 x y Hx Hy), <- ?(solve12 x y Hx Hy), <- ?(solve03 x y Hx Hy).
  unfold Lap, eM. cbn [ev Dx Dy]. repeat gen a. simpl. field.
Qed.
Lemma lap_mu4 x y : (Rabs x < r)%R -> (Rabs y < r)%R -> let z := a 0%nat 0%nat x y in
  (snd (ev L w0 a (Lap (Lap eM)) x y) = 8 * mu4 (Wk L z 2) (Wk L z 3) (Wk L z 4) (Wk L z 5) (Wk L z 6))%R.
Proof.
  intros Hx Hy z. unfold mu4, z. rewrite <- ?(solve10 x y Hx Hy), <- ?(solve01 x y Hx Hy), <- ?(solve20 x y Hx Hy), <- ?(solve11 x y Hx Hy), <- ?(solve02 x y Hx Hy), <- ?(solve30 x y Hx Hy), <- ?(solve21 x y Hx Hy), <- ?(solve12 x y Hx Hy), <- ?(solve03 x y Hx Hy), <- ?(solve40 x y Hx Hy), <- ?(solve31 x y Hx Hy), <- ?(solve22 x y Hx Hy), <- ?(solve13 x y Hx Hy), <- ?(solve04 x y Hx Hy), <- ?(solve50 x y Hx Hy), <- ?(solve41 x y Hx Hy), <- ?(solve32 x y Hx Hy), <- ?(solve23 x y Hx Hy), <- ?(solve14 x y Hx Hy), <- ?(solve05 x y Hx Hy).
  unfold Lap, eM. cbn [ev Dx Dy]. repeat gen a. simpl. field.
Qed.
End BRANCH.

(** * Laplacians are unique *)
Lemma laplacian_unique r f g f' g' : (forall x y, (Rabs x < r)%R -> (Rabs y < r)%R -> f x y = f' x y) ->
  laplacian_on r f g -> laplacian_on r f' g' -> forall x y, (Rabs x < r)%R -> (Rabs y < r)%R -> g x y = g' x y.
Proof.
  intros E (fx & fy & fxx & fyy & H) (fx' & fy' & fxx' & fyy' & H') x y Hx Hy.
  assert (Ex : forall x y, (Rabs x < r)%R -> (Rabs y < r)%R -> fx x y = fx' x y).
  { intros s t Hs Ht. destruct (H s t Hs Ht) as (A & _). destruct (H' s t Hs Ht) as (A' & _).
    rewrite <- (is_derive_unique _ _ _ A). apply is_derive_unique.
    apply (is_derive_ext_loc (fun q => f' q t)); [|exact A']. apply (box_loc r); [exact Hs|]. intros q Q. symmetry. apply E; assumption. }
  assert (Ey : forall x y, (Rabs x < r)%R -> (Rabs y < r)%R -> fy x y = fy' x y).
  { intros s t Hs Ht. destruct (H s t Hs Ht) as (_ & _ & A & _). destruct (H' s t Hs Ht) as (_ & _ & A' & _).
    rewrite <- (is_derive_unique _ _ _ A). apply is_derive_unique.
    apply (is_derive_ext_loc (fun q => f' s q)); [|exact A']. apply (box_loc r); [exact Ht|]. intros q Q. symmetry. apply E; assumption. }
  destruct (H x y Hx Hy) as (_ & A & _ & B & ->). destruct (H' x y Hx Hy) as (_ & A' & _ & B' & ->). f_equal.
  - rewrite <- (is_derive_unique _ _ _ A). apply is_derive_unique.
    apply (is_derive_ext_loc (fun q => fx' q y)); [|exact A']. apply (box_loc r); [exact Hx|]. intros q Q. symmetry. apply Ex; assumption.
  - rewrite <- (is_derive_unique _ _ _ B). apply is_derive_unique.
    apply (is_derive_ext_loc (fun q => fy' x q)); [|exact B']. apply (box_loc r); [exact Hy|]. intros q Q. symmetry. apply Ey; assumption.
Qed.
Lemma magnification_unique L r z M M' : magnification_on L r z M -> magnification_on L r z M' ->
  forall x y, (Rabs x < r)%R -> (Rabs y < r)%R -> M x y = M' x y.
Proof.
  intros H H' x y Hx Hy. destruct (H x y Hx Hy) as (D & (A & DA & EA') & _ & ->). destruct (H' x y Hx Hy) as (D' & (B & DB & EB) & _ & ->).
  rewrite <- EA', <- EB, (has_derivative_unique _ _ _ _ DA DB). reflexivity.
Qed.
Lemma expansion_val L w0 z0 m0 l1 l2 : expansion_at L w0 z0 m0 l1 l2 ->
  (m0 = mu0 (Wk L z0 2) /\ l1 = 4 * mu2 (Wk L z0 2) (Wk L z0 3) (Wk L z0 4) /\
   l2 = 8 * mu4 (Wk L z0 2) (Wk L z0 3) (Wk L z0 4) (Wk L z0 5) (Wk L z0 6))%R.
Proof.
  intros (r & a & M & M2 & M4 & HB & <- & HM & H2 & H4 & <- & <- & <-).
  pose proof (ib_pos _ _ _ _ HB) as Hr. assert (Z : (Rabs 0 < r)%R) by (rewrite Rabs_R0; exact Hr).
  pose proof (magnification_unique _ _ _ _ _ HM (magnification_eM L w0 r a HB)) as U0.
  pose proof (laplacian_unique _ _ _ _ _ U0 H2 (laplacian_ev L w0 r a HB eM wok_eM)) as U2.
  pose proof (laplacian_unique _ _ _ _ _ U2 H4 (laplacian_ev L w0 r a HB (Lap eM) (wok_Lap _ wok_eM))) as U4.
  split; [|split].
  - rewrite (U0 0%R 0%R Z Z). apply eM_val with (r := r); assumption.
  - rewrite (U2 0%R 0%R Z Z). apply lap_mu2 with (r := r); assumption.
  - rewrite (U4 0%R 0%R Z Z). apply lap_mu4 with (r := r); assumption.
Qed.
Lemma expansion_exists L w0 r a : image_branch L w0 r a -> exists m0 l1 l2, expansion_at L w0 (a 0%nat 0%nat 0%R 0%R) m0 l1 l2.
Proof.
  intros HB. do 3 eexists. exists r, a. do 3 eexists.
  split; [exact HB|]. split; [reflexivity|]. split; [apply (magnification_eM L w0 r a HB)|].
  split; [apply (laplacian_ev L w0 r a HB eM); exact wok_eM|].
  split; [apply (laplacian_ev L w0 r a HB (Lap eM)); apply wok_Lap; exact wok_eM|]. repeat split; reflexivity.
Qed.
Lemma W_one_k z k : W_one z k = Wk single_lens z k.
Proof.
  unfold W_one, Wk, single_lens. cbn [Wsum]. replace (z - RtoC 0) with z by ring. unfold Cdiv. ring.
Qed.
Lemma W_two_k a e1 z k : W_two a e1 z k = Wk (binary_mid a e1) z k.
Proof.
  unfold W_two, Wk, binary_mid. cbn [Wsum]. replace (z - RtoC (- a)) with (z + a) by (rewrite RtoC_opp; ring). ring.
Qed.
Lemma W_three_k a r3 e1 e2 z k : W_three a r3 e1 e2 z k = Wk (triple_mid a e1 e2 (RtoC r3)) z k.
Proof.
  unfold W_three, Wk, triple_mid. cbn [Wsum]. replace (z - RtoC (- a)) with (z + a) by (rewrite RtoC_opp; ring). ring.
Qed.
Lemma hex_sum_masked (W : C -> nat -> C) zs mask rho u1 ts : Forall2 (fun z t => cassan_of (W z) rho u1 = t) zs ts ->
  hex_sum W zs mask rho u1 = (masked_sum total ts mask, (masked_sum second ts mask + masked_sum third ts mask)%R).
Proof.
  intros H. unfold hex_sum. cbv zeta. f_equal; [|f_equal].
  - revert mask. induction H as [|z t zs ts E H IH]; intros mask; [reflexivity|].
    destruct mask as [|m mask]; [reflexivity|]. cbn [map combine sumR masked_sum fst snd]. rewrite E. rewrite IH. destruct t as [[? ?] ?].
    destruct m; cbn [total]; ring.
  - revert mask. induction H as [|z t zs ts E H IH]; intros mask; [reflexivity|].
    destruct mask as [|m mask]; [reflexivity|]. cbn [map combine sumR masked_sum fst snd]. rewrite E. rewrite IH. destruct t as [[? ?] ?].
    destruct m; cbn [second]; ring.
  - revert mask. induction H as [|z t zs ts E H IH]; intros mask; [reflexivity|].
    destruct mask as [|m mask]; [reflexivity|]. cbn [map combine sumR masked_sum fst snd]. rewrite E. rewrite IH. destruct t as [[? ?] ?].
    destruct m; cbn [third]; ring.
Qed.
Lemma cassan_terms L w0 z W rho u1 mom2 mom4 t : (forall k, W k = Wk L z k) -> 
  mom2 = (1 / 2 * (1 - 2 * u1 / (3 - u1) / 5))%R -> mom4 = (1 / 3 * (1 - 11 * (2 * u1 / (3 - u1)) / 35))%R ->
  (let '((m0, l1), l2) := t in expansion_at L w0 z m0 l1 l2) -> cassan_of W rho u1 = disc_terms rho mom2 mom4 t.
Proof.
  destruct t as [[m0 l1] l2]. intros HW -> -> H. destruct (expansion_val _ _ _ _ _ _ H) as (-> & -> & ->).
  unfold cassan_of, cassan, disc_terms. rewrite !HW. cbv zeta. generalize (2 * u1 / (3 - u1))%R. intros g. f_equal; [f_equal|]; field.
Qed.
Lemma hex_terms L w0 (W : C -> nat -> C) zs mask rho u1 mom2 mom4 ts : (forall z k, W z k = Wk L z k) -> 
  mom2 = (1 / 2 * (1 - 2 * u1 / (3 - u1) / 5))%R -> mom4 = (1 / 3 * (1 - 11 * (2 * u1 / (3 - u1)) / 35))%R ->
  Forall2 (fun z t => let '((m0, l1), l2) := t in expansion_at L w0 z m0 l1 l2) zs ts ->
  let ds := map (disc_terms rho mom2 mom4) ts in
  hex_sum W zs mask rho u1 = (masked_sum total ds mask, (masked_sum second ds mask + masked_sum third ds mask)%R).
Proof.
  intros HW E2 E4 H ds. apply hex_sum_masked. unfold ds. induction H as [|z t zs ts E H IH]; cbn [map]; constructor; [|exact IH].
  apply (cassan_terms L w0 z); auto.
Qed.
