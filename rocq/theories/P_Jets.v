(** Jets of image branches. *)
From Coq Require Import Reals List Bool Arith ZArith Lia Lra Factorial.
From Coquelicot Require Import Coquelicot.
From Verif Require Import Base_R Base_List Base_C S_PointSource S_Multipole M_PointSource M_Multipole P_Lens.
Import ListNotations.
Local Open Scope R_scope.
Local Open Scope C_scope.

(** * calculus of complex functions of a real variable *)
Lemma dC_const c t : dC (fun _ => c) t 0.
Proof. split; simpl; apply (is_derive_const (V := R_NormedModule)). Qed.
Lemma dC_plus f g t a b : dC f t a -> dC g t b -> dC (fun s => f s + g s) t (a + b).
Proof.
  intros [A1 A2] [B1 B2]. split; simpl.
  - apply (is_derive_plus (fun s => fst (f s)) (fun s => fst (g s))); assumption.
  - apply (is_derive_plus (fun s => snd (f s)) (fun s => snd (g s))); assumption.
Qed.
Lemma dC_conj f t a : dC f t a -> dC (fun s => Cconj (f s)) t (Cconj a).
Proof. intros [A B]. split; simpl; [exact A|]. apply (is_derive_opp (fun s => snd (f s))). exact B. Qed.
Lemma dC_mult f g t a b : dC f t a -> dC g t b -> dC (fun s => f s * g s) t (a * g t + f t * b).
Proof.
  intros [A1 A2] [B1 B2]. split; simpl.
  - match goal with |- is_derive _ _ ?v => replace v with ((fst a * fst (g t) + fst (f t) * fst b) - (snd a * snd (g t) + snd (f t) * snd b))%R by ring end.
    apply (is_derive_minus (fun s => fst (f s) * fst (g s))%R (fun s => snd (f s) * snd (g s))%R).
    + apply (is_derive_mult (fun s => fst (f s)) (fun s => fst (g s)) t); [assumption|assumption|intros; apply Rmult_comm].
    + apply (is_derive_mult (fun s => snd (f s)) (fun s => snd (g s)) t); [assumption|assumption|intros; apply Rmult_comm].
  - match goal with |- is_derive _ _ ?v => replace v with ((fst a * snd (g t) + fst (f t) * snd b) + (snd a * fst (g t) + snd (f t) * fst b))%R by ring end.
    apply (is_derive_plus (fun s => fst (f s) * snd (g s))%R (fun s => snd (f s) * fst (g s))%R).
    + apply (is_derive_mult (fun s => fst (f s)) (fun s => snd (g s)) t); [assumption|assumption|intros; apply Rmult_comm].
    + apply (is_derive_mult (fun s => snd (f s)) (fun s => fst (g s)) t); [assumption|assumption|intros; apply Rmult_comm].
Qed.
Lemma C_sq_pos (z : C) : z <> 0 -> (0 < fst z * fst z + snd z * snd z)%R.
Proof.
  intros H. rewrite <- Cmod_sq. pose proof (Cmod_gt_0 z) as [K _]. specialize (K H). nra.
Qed.
Lemma d_quot (p q : R -> R) t a b : is_derive p t a -> is_derive q t b -> (p t * p t + q t * q t <> 0)%R ->
  is_derive (fun s => p s / (p s ^ 2 + q s ^ 2))%R t
    ((a * (p t * p t + q t * q t) - p t * (2 * p t * a + 2 * q t * b)) / (p t * p t + q t * q t) ^ 2)%R.
Proof.
  intros A B N. assert (EA' : ex_derive p t) by (exists a; exact A). assert (EB' : ex_derive q t) by (exists b; exact B).
  auto_derive; [repeat split; try assumption; intros Q; apply N; rewrite <- Q; ring|].
  replace (Derive (fun x => p x) t) with a by (symmetry; apply is_derive_unique; exact A).
  replace (Derive (fun x => q x) t) with b by (symmetry; apply is_derive_unique; exact B).
  field. repeat split; intros Q; apply N; rewrite <- Q; ring.
Qed.
Lemma dC_inv f t a : dC f t a -> f t <> 0 -> dC (fun s => / f s) t (- a / (f t) ^ 2).
Proof.
  intros [A B] N. apply C_sq_pos in N.
  assert (N2 : (fst (f t) * fst (f t) + snd (f t) * snd (f t) <> 0)%R) by lra.
  pose proof (d_quot _ _ _ _ _ A B N2) as D1.
  assert (N3 : (snd (f t) * snd (f t) + fst (f t) * fst (f t) <> 0)%R) by lra.
  pose proof (d_quot _ _ _ _ _ B A N3) as D2.
  apply (is_derive_opp (fun s => snd (f s) / (snd (f s) ^ 2 + fst (f s) ^ 2))%R) in D2. 
  cbv beta in D1, D2. change opp with Ropp in D2.
  destruct (f t) as [p q] eqn:E. destruct a as [a1 a2]. cbn [fst snd] in *.
  assert (NN : ((p * p - q * q) * (p * p - q * q) + (p * q + q * p) * (p * q + q * p) <> 0)%R).
  { replace ((p * p - q * q) * (p * p - q * q) + (p * q + q * p) * (p * q + q * p))%R with ((p * p + q * q) * (p * p + q * q))%R by ring.
    apply Rmult_integral_contrapositive_currified; exact N2. }
  split.
  - match goal with |- is_derive _ _ ?v => match type of D1 with is_derive _ _ ?w => replace v with w end end; [exact D1|].
    simpl. field. split; [|exact N2]. intros Q; apply NN; rewrite <- Q; ring.
  - apply (is_derive_ext (fun s => - (snd (f s) / (snd (f s) ^ 2 + fst (f s) ^ 2)))%R).
    { intros s. simpl. unfold Rdiv. rewrite <- Ropp_mult_distr_l. f_equal. f_equal. f_equal. ring. }
    match goal with |- is_derive _ _ ?v => match type of D2 with is_derive _ _ ?w => replace v with w end end; [exact D2|].
    simpl. field. split; [|exact N3]. intros Q; apply NN; rewrite <- Q; ring.
Qed.
Lemma dC_unique f t a b : dC f t a -> dC f t b -> a = b.
Proof.
  intros [A1 A2] [B1 B2]. apply Ceq.
  - rewrite <- (is_derive_unique _ _ _ A1). apply is_derive_unique. exact B1.
  - rewrite <- (is_derive_unique _ _ _ A2). apply is_derive_unique. exact B2.
Qed.
Lemma box_loc r t (P : R -> Prop) : (Rabs t < r)%R -> (forall s, (Rabs s < r)%R -> P s) -> locally t P.
Proof.
  intros H HP. exists (mkposreal (r - Rabs t)%R ltac:(lra)). intros s Hs. apply HP.
  assert (Q : (Rabs (s - t) < r - Rabs t)%R) by exact Hs.
  pose proof (Rabs_triang (s - t)%R t) as T. replace ((s - t) + t)%R with s in T by (clear; lra). lra.
Qed.
Lemma dC_ext_box r f g t a : (Rabs t < r)%R -> (forall s, (Rabs s < r)%R -> f s = g s) -> dC f t a -> dC g t a.
Proof.
  intros H E [A B]. split.
  - apply (is_derive_ext_loc (fun s => fst (f s))); [|exact A]. apply (box_loc r); [exact H|]. intros s Hs. rewrite (E s Hs). reflexivity.
  - apply (is_derive_ext_loc (fun s => snd (f s))); [|exact B]. apply (box_loc r); [exact H|]. intros s Hs. rewrite (E s Hs). reflexivity.
Qed.
Lemma dC_pow f t a k : dC f t a -> dC (fun s => f s ^ S k) t (RtoC (INR (S k)) * a * f t ^ k).
Proof.
  intros H. induction k as [|k IH].
  - apply (dC_ext_box (Rabs t + 1)%R f); [lra| |].
    + intros s _. cbn [Cpow]. ring.
    + cbn [Cpow INR]. replace (RtoC 1 * a * 1) with a by ring. exact H.
  - pose proof (dC_mult _ _ _ _ _ H IH) as P. cbn [Cpow] in P |- *.
    match goal with |- dC _ _ ?v => match type of P with dC _ _ ?w => replace v with w end end; [exact P|].
    rewrite (S_INR (S k)), RtoC_plus. ring.
Qed.

(** * the functions W_k of a lens system *)
Fixpoint Wsum (L : lens_system) (z : C) (k : nat) : C :=
  match L with [] => RtoC 0 | (m, p) :: t => RtoC m / (z - p) ^ k + Wsum t z k end.
Definition Wk (L : lens_system) (z : C) (k : nat) : C := wfac k * Wsum L z k.
Lemma dC_Wsum L f t a k : dC f t a -> off_masses L (f t) -> 
  dC (fun s => Wsum L (f s) (S k)) t (- RtoC (INR (S k)) * Wsum L (f t) (S (S k)) * a).
Proof.
  intros H. induction L as [|[m p] L IH]; intros O.
  - cbn [Wsum]. replace (- RtoC (INR (S k)) * RtoC 0 * a) with (RtoC 0) by ring. apply dC_const.
  - assert (O' : off_masses L (f t)) by (intros m' p' I; apply (O m' p'); right; exact I).
    assert (N : f t - p <> 0) by (intros Q; apply (O m p); [left; reflexivity|apply Cminus_eq_0; exact Q]).
    specialize (IH O'). cbn [Wsum].
    assert (D1 : dC (fun s => f s - p) t a).
    { pose proof (dC_plus f (fun _ => - p) t a 0 H (dC_const _ _)) as P. replace (a + 0) with a in P by ring. exact P. }
    pose proof (dC_pow _ _ _ k D1) as D2.
    pose proof (dC_inv _ _ _ D2 (Cpow_neq0 _ _ N)) as D3.
    pose proof (dC_mult (fun _ => RtoC m) _ t 0 _ (dC_const _ _) D3) as D4. cbv beta in D4.
    pose proof (dC_plus _ _ _ _ _ D4 IH) as D5.
    match goal with |- dC _ _ ?v => match type of D5 with dC _ _ ?w => replace v with w end end; [exact D5|].
    cbn [Cpow]. field. split; [apply Cpow_neq0; exact N|exact N].
Qed.
Lemma wfac_S k : wfac (S (S k)) = - RtoC (INR (S k)) * wfac (S k).
Proof.
  unfold wfac. replace (S (S k) - 1)%nat with (S k) by lia. replace (S k - 1)%nat with k by lia.
  rewrite <- RtoC_opp, <- RtoC_mult. f_equal. change (fact (S k)) with ((S k) * fact k)%nat. rewrite mult_INR. simpl pow. ring.
Qed.
Lemma dC_W L f t a k : (1 <= k)%nat -> dC f t a -> off_masses L (f t) -> dC (fun s => Wk L (f s) k) t (Wk L (f t) (S k) * a).
Proof.
  intros Hk H O. destruct k as [|k]; [lia|]. unfold Wk.
  pose proof (dC_mult (fun _ => wfac (S k)) _ t 0 _ (dC_const _ _) (dC_Wsum L f t a k H O)) as P. cbv beta in P.
  rewrite wfac_S. match goal with |- dC _ _ ?v => match type of P with dC _ _ ?w => replace v with w end end; [exact P|]. ring.
Qed.

(** * expressions in the derivatives of the branch, and their symbolic derivatives *)
Inductive ex := EA (m n : nat) | EW (k : nat) | EC (c : C) | EZ | EP (e f : ex) | EM (e f : ex) | EJ (e : ex).
Fixpoint Dx (e : ex) : ex :=
  match e with
  | EA m n => EA (S m) n | EW k => EM (EW (S k)) (EA 1 0) | EC _ => EC (RtoC 0) | EZ => EC (RtoC 1)
  | EP e f => EP (Dx e) (Dx f) | EM e f => EP (EM (Dx e) f) (EM e (Dx f)) | EJ e => EJ (Dx e) end.
Fixpoint Dy (e : ex) : ex :=
  match e with
  | EA m n => EA m (S n) | EW k => EM (EW (S k)) (EA 0 1) | EC _ => EC (RtoC 0) | EZ => EC Ci
  | EP e f => EP (Dy e) (Dy f) | EM e f => EP (EM (Dy e) f) (EM e (Dy f)) | EJ e => EJ (Dy e) end.
(** W_0 does not occur *)
Fixpoint wok (e : ex) : Prop :=
  match e with EW k => (1 <= k)%nat | EP e f | EM e f => wok e /\ wok f | EJ e => wok e | _ => True end.
Lemma wok_Dx e : wok e -> wok (Dx e).
Proof. induction e; cbn; intuition lia. Qed.
Lemma wok_Dy e : wok e -> wok (Dy e).
Proof. induction e; cbn; intuition lia. Qed.

Section BRANCH.
Variables (L : lens_system) (w0 : C) (r : R) (a : nat -> nat -> R -> R -> C).
Hypothesis HB : image_branch L w0 r a.
Fixpoint ev (e : ex) (x y : R) : C :=
  match e with
  | EA m n => a m n x y | EW k => Wk L (a 0%nat 0%nat x y) k | EC c => c | EZ => w0 + (x, y)
  | EP e f => ev e x y + ev f x y | EM e f => ev e x y * ev f x y | EJ e => Cconj (ev e x y) end.
Lemma ev_dx e x y : wok e -> (Rabs x < r)%R -> (Rabs y < r)%R -> dC (fun t => ev e t y) x (ev (Dx e) x y).
Proof.
  intros Hw Hx Hy. induction e as [m n|k|c| |e1 IH1 e2 IH2|e1 IH1 e2 IH2|e1 IH1]; cbn [ev Dx wok] in *.
  - apply (ib_dx _ _ _ _ HB); assumption.
  - apply (dC_W L (fun t => a 0%nat 0%nat t y) x (a 1%nat 0%nat x y) k Hw).
    + apply (ib_dx _ _ _ _ HB); assumption.
    + apply (ib_image _ _ _ _ HB); assumption.
  - apply dC_const.
  - split; simpl.
    + auto_derive; [exact I|ring].
    + auto_derive; [exact I|ring].
  - destruct Hw. apply (dC_plus (fun t => ev e1 t y) (fun t => ev e2 t y)); auto.
  - destruct Hw. apply (dC_mult (fun t => ev e1 t y) (fun t => ev e2 t y)); auto.
  - apply (dC_conj (fun t => ev e1 t y)); auto.
Qed.
Lemma ev_dy e x y : wok e -> (Rabs x < r)%R -> (Rabs y < r)%R -> dC (fun t => ev e x t) y (ev (Dy e) x y).
Proof.
  intros Hw Hx Hy. induction e as [m n|k|c| |e1 IH1 e2 IH2|e1 IH1 e2 IH2|e1 IH1]; cbn [ev Dy wok] in *.
  - apply (ib_dy _ _ _ _ HB); assumption.
  - apply (dC_W L (fun t => a 0%nat 0%nat x t) y (a 0%nat 1%nat x y) k Hw).
    + apply (ib_dy _ _ _ _ HB); assumption.
    + apply (ib_image _ _ _ _ HB); assumption.
  - apply dC_const.
  - split; simpl.
    + auto_derive; [exact I|ring].
    + auto_derive; [exact I|ring].
  - destruct Hw. apply (dC_plus (fun t => ev e1 x t) (fun t => ev e2 x t)); auto.
  - destruct Hw. apply (dC_mult (fun t => ev e1 x t) (fun t => ev e2 x t)); auto.
  - apply (dC_conj (fun t => ev e1 x t)); auto.
Qed.
Definition holds (e f : ex) : Prop := forall x y, (Rabs x < r)%R -> (Rabs y < r)%R -> ev e x y = ev f x y.
Lemma holds_dx e f : wok e -> wok f -> holds e f -> holds (Dx e) (Dx f).
Proof.
  intros We Wf H x y Hx Hy. apply (dC_unique (fun t => ev f t y) x); [|apply ev_dx; assumption].
  apply (dC_ext_box r (fun t => ev e t y)); [exact Hx| |apply ev_dx; assumption]. intros s Hs. apply H; assumption.
Qed.
Lemma holds_dy e f : wok e -> wok f -> holds e f -> holds (Dy e) (Dy f).
Proof.
  intros We Wf H x y Hx Hy. apply (dC_unique (fun t => ev f x t) y); [|apply ev_dy; assumption].
  apply (dC_ext_box r (fun t => ev e x t)); [exact Hy| |apply ev_dy; assumption]. intros s Hs. apply H; assumption.
Qed.
Lemma holds_rw e f g : holds e f -> (forall x y, ev f x y = ev g x y) -> holds e g.
Proof. intros H E x y Hx Hy. rewrite <- E. apply H; assumption. Qed.
Lemma deflection_W (M : lens_system) (z : C) : deflection M z = Cconj (Wk M z 1).
Proof.
  unfold Wk. replace (wfac 1) with (RtoC 1) by (unfold wfac; simpl; f_equal; ring). rewrite Cmult_1_l.
  induction M as [|[m p] M IH]; cbn [deflection Wsum].
  - rewrite Cconj_RtoC. reflexivity.
  - rewrite IH, Cconj_plus, Cconj_div, Cconj_pow, Cconj_RtoC. cbn [Cpow]. rewrite Cmult_1_r. reflexivity.
Qed.
Lemma lens_holds : holds (EA 0 0) (EP (EJ (EW 1)) EZ).
Proof.
  intros x y Hx Hy. cbn [ev]. destruct (ib_image _ _ _ _ HB x y Hx Hy) as [_ E]. rewrite <- E. unfold lens_map.
  rewrite <- deflection_W. ring.
Qed.
Ltac wk := repeat (split || exact I || (cbn; lia)).
Definition G10 := EM (EW 2) (EA 1 0).
Definition G01 := EM (EW 2) (EA 0 1).
Lemma H10 : holds (EA 1 0) (EP (EJ G10) (EC (RtoC 1))).
Proof. exact (holds_dx (EA 0 0) (EP (EJ (EW 1)) EZ) ltac:(wk) ltac:(wk) lens_holds). Qed.
Lemma H01 : holds (EA 0 1) (EP (EJ G01) (EC Ci)).
Proof. exact (holds_dy (EA 0 0) (EP (EJ (EW 1)) EZ) ltac:(wk) ltac:(wk) lens_holds). Qed.
Definition q20 := (EM (EM (EW 3) (EA 1 0)) (EA 1 0)).
Definition G20 := EP (EM (EW 2) (EA 2 0)) q20.
Definition q11 := (EM (EM (EW 3) (EA 1 0)) (EA 0 1)).
Definition G11 := EP (EM (EW 2) (EA 1 1)) q11.
Definition q02 := (EM (EM (EW 3) (EA 0 1)) (EA 0 1)).
Definition G02 := EP (EM (EW 2) (EA 0 2)) q02.
Definition q30 := (EP (EM (EM (EM (EW 3) (EC (RtoC 3))) (EA 2 0)) (EA 1 0)) (EM (EM (EM (EW 4) (EA 1 0)) (EA 1 0)) (EA 1 0))).
Definition G30 := EP (EM (EW 2) (EA 3 0)) q30.
Definition q21 := (EP (EM (EW 3) (EP (EM (EM (EC (RtoC 2)) (EA 1 1)) (EA 1 0)) (EM (EA 0 1) (EA 2 0)))) (EM (EM (EM (EW 4) (EA 0 1)) (EA 1 0)) (EA 1 0))).
Definition G21 := EP (EM (EW 2) (EA 2 1)) q21.
Definition q12 := (EP (EM (EW 3) (EP (EM (EM (EC (RtoC 2)) (EA 1 1)) (EA 0 1)) (EM (EA 1 0) (EA 0 2)))) (EM (EM (EM (EW 4) (EA 1 0)) (EA 0 1)) (EA 0 1))).
Definition G12 := EP (EM (EW 2) (EA 1 2)) q12.
Definition q03 := (EP (EM (EM (EM (EW 3) (EC (RtoC 3))) (EA 0 2)) (EA 0 1)) (EM (EM (EM (EW 4) (EA 0 1)) (EA 0 1)) (EA 0 1))).
Definition G03 := EP (EM (EW 2) (EA 0 3)) q03.
Definition q40 := (EP (EP (EM (EW 3) (EP (EM (EM (EC (RtoC 4)) (EA 3 0)) (EA 1 0)) (EM (EM (EC (RtoC 3)) (EA 2 0)) (EA 2 0)))) (EM (EM (EM (EM (EW 4) (EC (RtoC 6))) (EA 2 0)) (EA 1 0)) (EA 1 0))) (EM (EM (EM (EM (EW 5) (EA 1 0)) (EA 1 0)) (EA 1 0)) (EA 1 0))).
Definition G40 := EP (EM (EW 2) (EA 4 0)) q40.
Definition q31 := (EP (EP (EM (EW 3) (EP (EP (EM (EM (EC (RtoC 3)) (EA 2 1)) (EA 1 0)) (EM (EM (EC (RtoC 3)) (EA 1 1)) (EA 2 0))) (EM (EA 0 1) (EA 3 0)))) (EM (EM (EW 4) (EC (RtoC 3))) (EP (EM (EM (EA 1 1) (EA 1 0)) (EA 1 0)) (EM (EM (EA 0 1) (EA 2 0)) (EA 1 0))))) (EM (EM (EM (EM (EW 5) (EA 0 1)) (EA 1 0)) (EA 1 0)) (EA 1 0))).
Definition G31 := EP (EM (EW 2) (EA 3 1)) q31.
Definition q22 := (EP (EP (EM (EW 3) (EP (EP (EP (EM (EM (EC (RtoC 2)) (EA 1 2)) (EA 1 0)) (EM (EM (EC (RtoC 2)) (EA 1 1)) (EA 1 1))) (EM (EA 0 2) (EA 2 0))) (EM (EM (EC (RtoC 2)) (EA 2 1)) (EA 0 1)))) (EM (EW 4) (EP (EP (EM (EM (EA 0 2) (EA 1 0)) (EA 1 0)) (EM (EM (EM (EC (RtoC 4)) (EA 1 1)) (EA 0 1)) (EA 1 0))) (EM (EM (EA 0 1) (EA 0 1)) (EA 2 0))))) (EM (EM (EM (EM (EW 5) (EA 0 1)) (EA 0 1)) (EA 1 0)) (EA 1 0))).
Definition G22 := EP (EM (EW 2) (EA 2 2)) q22.
Definition q13 := (EP (EP (EM (EW 3) (EP (EP (EM (EM (EC (RtoC 3)) (EA 1 2)) (EA 0 1)) (EM (EM (EC (RtoC 3)) (EA 1 1)) (EA 0 2))) (EM (EA 1 0) (EA 0 3)))) (EM (EM (EW 4) (EC (RtoC 3))) (EP (EM (EM (EA 1 1) (EA 0 1)) (EA 0 1)) (EM (EM (EA 1 0) (EA 0 2)) (EA 0 1))))) (EM (EM (EM (EM (EW 5) (EA 1 0)) (EA 0 1)) (EA 0 1)) (EA 0 1))).
Definition G13 := EP (EM (EW 2) (EA 1 3)) q13.
Definition q04 := (EP (EP (EM (EW 3) (EP (EM (EM (EC (RtoC 4)) (EA 0 3)) (EA 0 1)) (EM (EM (EC (RtoC 3)) (EA 0 2)) (EA 0 2)))) (EM (EM (EM (EM (EW 4) (EC (RtoC 6))) (EA 0 2)) (EA 0 1)) (EA 0 1))) (EM (EM (EM (EM (EW 5) (EA 0 1)) (EA 0 1)) (EA 0 1)) (EA 0 1))).
Definition G04 := EP (EM (EW 2) (EA 0 4)) q04.
Definition q50 := (EP (EP (EP (EM (EW 3) (EP (EM (EM (EC (RtoC 5)) (EA 4 0)) (EA 1 0)) (EM (EM (EC (RtoC 10)) (EA 2 0)) (EA 3 0)))) (EM (EW 4) (EP (EM (EM (EM (EC (RtoC 10)) (EA 3 0)) (EA 1 0)) (EA 1 0)) (EM (EM (EM (EC (RtoC 15)) (EA 2 0)) (EA 2 0)) (EA 1 0))))) (EM (EM (EM (EM (EM (EW 5) (EC (RtoC 10))) (EA 2 0)) (EA 1 0)) (EA 1 0)) (EA 1 0))) (EM (EM (EM (EM (EM (EW 6) (EA 1 0)) (EA 1 0)) (EA 1 0)) (EA 1 0)) (EA 1 0))).
Definition G50 := EP (EM (EW 2) (EA 5 0)) q50.
Definition q41 := (EP (EP (EP (EM (EW 3) (EP (EP (EP (EM (EM (EC (RtoC 4)) (EA 3 1)) (EA 1 0)) (EM (EM (EC (RtoC 4)) (EA 1 1)) (EA 3 0))) (EM (EM (EC (RtoC 6)) (EA 2 1)) (EA 2 0))) (EM (EA 0 1) (EA 4 0)))) (EM (EW 4) (EP (EP (EP (EM (EM (EM (EC (RtoC 6)) (EA 2 1)) (EA 1 0)) (EA 1 0)) (EM (EM (EM (EC (RtoC 12)) (EA 1 1)) (EA 2 0)) (EA 1 0))) (EM (EM (EM (EC (RtoC 3)) (EA 0 1)) (EA 2 0)) (EA 2 0))) (EM (EM (EM (EC (RtoC 4)) (EA 0 1)) (EA 1 0)) (EA 3 0))))) (EM (EW 5) (EP (EM (EM (EM (EM (EC (RtoC 4)) (EA 1 1)) (EA 1 0)) (EA 1 0)) (EA 1 0)) (EM (EM (EM (EM (EC (RtoC 6)) (EA 0 1)) (EA 1 0)) (EA 1 0)) (EA 2 0))))) (EM (EM (EM (EM (EM (EW 6) (EA 0 1)) (EA 1 0)) (EA 1 0)) (EA 1 0)) (EA 1 0))).
Definition G41 := EP (EM (EW 2) (EA 4 1)) q41.
Definition q32 := (EP (EP (EP (EM (EW 3) (EP (EP (EP (EP (EM (EM (EC (RtoC 3)) (EA 2 2)) (EA 1 0)) (EM (EM (EC (RtoC 6)) (EA 1 1)) (EA 2 1))) (EM (EM (EC (RtoC 3)) (EA 1 2)) (EA 2 0))) (EM (EA 0 2) (EA 3 0))) (EM (EM (EC (RtoC 2)) (EA 3 1)) (EA 0 1)))) (EM (EW 4) (EP (EP (EP (EP (EP (EM (EM (EM (EC (RtoC 3)) (EA 1 2)) (EA 1 0)) (EA 1 0)) (EM (EM (EM (EC (RtoC 6)) (EA 1 1)) (EA 1 1)) (EA 1 0))) (EM (EM (EM (EC (RtoC 3)) (EA 0 2)) (EA 2 0)) (EA 1 0))) (EM (EM (EM (EC (RtoC 6)) (EA 0 1)) (EA 1 1)) (EA 2 0))) (EM (EM (EM (EC (RtoC 6)) (EA 0 1)) (EA 2 1)) (EA 1 0))) (EM (EM (EA 0 1) (EA 0 1)) (EA 3 0))))) (EM (EW 5) (EP (EP (EM (EM (EM (EA 0 2) (EA 1 0)) (EA 1 0)) (EA 1 0)) (EM (EM (EM (EM (EC (RtoC 6)) (EA 1 1)) (EA 0 1)) (EA 1 0)) (EA 1 0))) (EM (EM (EM (EM (EC (RtoC 3)) (EA 0 1)) (EA 0 1)) (EA 1 0)) (EA 2 0))))) (EM (EM (EM (EM (EM (EW 6) (EA 0 1)) (EA 0 1)) (EA 1 0)) (EA 1 0)) (EA 1 0))).
Definition G32 := EP (EM (EW 2) (EA 3 2)) q32.
Definition q23 := (EP (EP (EP (EM (EW 3) (EP (EP (EP (EP (EM (EM (EC (RtoC 3)) (EA 2 2)) (EA 0 1)) (EM (EM (EC (RtoC 6)) (EA 1 1)) (EA 1 2))) (EM (EM (EC (RtoC 3)) (EA 2 1)) (EA 0 2))) (EM (EA 2 0) (EA 0 3))) (EM (EM (EC (RtoC 2)) (EA 1 3)) (EA 1 0)))) (EM (EW 4) (EP (EP (EP (EP (EP (EM (EM (EM (EC (RtoC 3)) (EA 2 1)) (EA 0 1)) (EA 0 1)) (EM (EM (EM (EC (RtoC 6)) (EA 1 1)) (EA 1 1)) (EA 0 1))) (EM (EM (EM (EC (RtoC 3)) (EA 2 0)) (EA 0 2)) (EA 0 1))) (EM (EM (EM (EC (RtoC 6)) (EA 1 0)) (EA 1 1)) (EA 0 2))) (EM (EM (EM (EC (RtoC 6)) (EA 1 0)) (EA 1 2)) (EA 0 1))) (EM (EM (EA 1 0) (EA 1 0)) (EA 0 3))))) (EM (EW 5) (EP (EP (EM (EM (EM (EA 2 0) (EA 0 1)) (EA 0 1)) (EA 0 1)) (EM (EM (EM (EM (EC (RtoC 6)) (EA 1 1)) (EA 1 0)) (EA 0 1)) (EA 0 1))) (EM (EM (EM (EM (EC (RtoC 3)) (EA 1 0)) (EA 1 0)) (EA 0 1)) (EA 0 2))))) (EM (EM (EM (EM (EM (EW 6) (EA 1 0)) (EA 1 0)) (EA 0 1)) (EA 0 1)) (EA 0 1))).
Definition G23 := EP (EM (EW 2) (EA 2 3)) q23.
Definition q14 := (EP (EP (EP (EM (EW 3) (EP (EP (EP (EM (EM (EC (RtoC 4)) (EA 1 3)) (EA 0 1)) (EM (EM (EC (RtoC 4)) (EA 1 1)) (EA 0 3))) (EM (EM (EC (RtoC 6)) (EA 1 2)) (EA 0 2))) (EM (EA 1 0) (EA 0 4)))) (EM (EW 4) (EP (EP (EP (EM (EM (EM (EC (RtoC 6)) (EA 1 2)) (EA 0 1)) (EA 0 1)) (EM (EM (EM (EC (RtoC 12)) (EA 1 1)) (EA 0 2)) (EA 0 1))) (EM (EM (EM (EC (RtoC 3)) (EA 1 0)) (EA 0 2)) (EA 0 2))) (EM (EM (EM (EC (RtoC 4)) (EA 1 0)) (EA 0 1)) (EA 0 3))))) (EM (EW 5) (EP (EM (EM (EM (EM (EC (RtoC 4)) (EA 1 1)) (EA 0 1)) (EA 0 1)) (EA 0 1)) (EM (EM (EM (EM (EC (RtoC 6)) (EA 1 0)) (EA 0 1)) (EA 0 1)) (EA 0 2))))) (EM (EM (EM (EM (EM (EW 6) (EA 1 0)) (EA 0 1)) (EA 0 1)) (EA 0 1)) (EA 0 1))).
Definition G14 := EP (EM (EW 2) (EA 1 4)) q14.
Definition q05 := (EP (EP (EP (EM (EW 3) (EP (EM (EM (EC (RtoC 5)) (EA 0 4)) (EA 0 1)) (EM (EM (EC (RtoC 10)) (EA 0 2)) (EA 0 3)))) (EM (EW 4) (EP (EM (EM (EM (EC (RtoC 10)) (EA 0 3)) (EA 0 1)) (EA 0 1)) (EM (EM (EM (EC (RtoC 15)) (EA 0 2)) (EA 0 2)) (EA 0 1))))) (EM (EM (EM (EM (EM (EW 5) (EC (RtoC 10))) (EA 0 2)) (EA 0 1)) (EA 0 1)) (EA 0 1))) (EM (EM (EM (EM (EM (EW 6) (EA 0 1)) (EA 0 1)) (EA 0 1)) (EA 0 1)) (EA 0 1))).
Definition G05 := EP (EM (EW 2) (EA 0 5)) q05.
Ltac step :=
  let x := fresh "x" in let y := fresh "y" in intros x y; cbn [ev Dx Dy]; 
  try (rewrite ?Cconj_RtoC, ?Cplus_0_r); f_equal; cbn [ev Dx Dy]; ring.
Lemma H20 : holds (EA 2 0) (EJ G20).
Proof.
  apply (holds_rw _ _ _ (holds_dx (EA 1 0) (EP (EJ G10) (EC (RtoC 1))) ltac:(wk) ltac:(wk) H10)).
  unfold G10, G20, q20. step.
Qed.
Lemma H11 : holds (EA 1 1) (EJ G11).
Proof.
  apply (holds_rw _ _ _ (holds_dx (EA 0 1) (EP (EJ G01) (EC Ci)) ltac:(wk) ltac:(wk) H01)).
  unfold G01, G11, q11. step.
Qed.
Lemma H02 : holds (EA 0 2) (EJ G02).
Proof.
  apply (holds_rw _ _ _ (holds_dy (EA 0 1) (EP (EJ G01) (EC Ci)) ltac:(wk) ltac:(wk) H01)).
  unfold G01, G02, q02. step.
Qed.
Lemma H30 : holds (EA 3 0) (EJ G30).
Proof.
  apply (holds_rw _ _ _ (holds_dx (EA 2 0) (EJ G20) ltac:(wk) ltac:(wk) H20)).
  unfold G20, G30, q20, q30. step.
Qed.
Lemma H21 : holds (EA 2 1) (EJ G21).
Proof.
  apply (holds_rw _ _ _ (holds_dx (EA 1 1) (EJ G11) ltac:(wk) ltac:(wk) H11)).
  unfold G11, G21, q11, q21. step.
Qed.
Lemma H12 : holds (EA 1 2) (EJ G12).
Proof.
  apply (holds_rw _ _ _ (holds_dx (EA 0 2) (EJ G02) ltac:(wk) ltac:(wk) H02)).
  unfold G02, G12, q02, q12. step.
Qed.
Lemma H03 : holds (EA 0 3) (EJ G03).
Proof.
  apply (holds_rw _ _ _ (holds_dy (EA 0 2) (EJ G02) ltac:(wk) ltac:(wk) H02)).
  unfold G02, G03, q02, q03. step.
Qed.
Lemma H40 : holds (EA 4 0) (EJ G40).
Proof.
  apply (holds_rw _ _ _ (holds_dx (EA 3 0) (EJ G30) ltac:(wk) ltac:(wk) H30)).
  unfold G30, G40, q30, q40. step.
Qed.
Lemma H31 : holds (EA 3 1) (EJ G31).
Proof.
  apply (holds_rw _ _ _ (holds_dx (EA 2 1) (EJ G21) ltac:(wk) ltac:(wk) H21)).
  unfold G21, G31, q21, q31. step.
Qed.
Lemma H22 : holds (EA 2 2) (EJ G22).
Proof.
  apply (holds_rw _ _ _ (holds_dx (EA 1 2) (EJ G12) ltac:(wk) ltac:(wk) H12)).
  unfold G12, G22, q12, q22. step.
Qed.
Lemma H13 : holds (EA 1 3) (EJ G13).
Proof.
  apply (holds_rw _ _ _ (holds_dx (EA 0 3) (EJ G03) ltac:(wk) ltac:(wk) H03)).
  unfold G03, G13, q03, q13. step.
Qed.
Lemma H04 : holds (EA 0 4) (EJ G04).
Proof.
  apply (holds_rw _ _ _ (holds_dy (EA 0 3) (EJ G03) ltac:(wk) ltac:(wk) H03)).
  unfold G03, G04, q03, q04. step.
Qed.
Lemma H50 : holds (EA 5 0) (EJ G50).
Proof.
  apply (holds_rw _ _ _ (holds_dx (EA 4 0) (EJ G40) ltac:(wk) ltac:(wk) H40)).
  unfold G40, G50, q40, q50. step.
Qed.
Lemma H41 : holds (EA 4 1) (EJ G41).
Proof.
  apply (holds_rw _ _ _ (holds_dx (EA 3 1) (EJ G31) ltac:(wk) ltac:(wk) H31)).
  unfold G31, G41, q31, q41. step.
Qed.
Lemma H32 : holds (EA 3 2) (EJ G32).
Proof.
  apply (holds_rw _ _ _ (holds_dx (EA 2 2) (EJ G22) ltac:(wk) ltac:(wk) H22)).
  unfold G22, G32, q22, q32. step.
Qed.
Lemma H23 : holds (EA 2 3) (EJ G23).
Proof.
  apply (holds_rw _ _ _ (holds_dx (EA 1 3) (EJ G13) ltac:(wk) ltac:(wk) H13)).
  unfold G13, G23, q13, q23. step.
Qed.
Lemma H14 : holds (EA 1 4) (EJ G14).
Proof.
  apply (holds_rw _ _ _ (holds_dx (EA 0 4) (EJ G04) ltac:(wk) ltac:(wk) H04)).
  unfold G04, G14, q04, q14. step.
Qed.
Lemma H05 : holds (EA 0 5) (EJ G05).
Proof.
  apply (holds_rw _ _ _ (holds_dy (EA 0 4) (EJ G04) ltac:(wk) ltac:(wk) H04)).
  unfold G04, G05, q04, q05. step.
Qed.

(** * solving for the derivatives *)
Lemma W_ne1 x y : (Rabs x < r)%R -> (Rabs y < r)%R -> (1 - Cmod (Wk L (a 0%nat 0%nat x y) 2) ^ 2 <> 0)%R.
Proof.
  intros Hx Hy Q. pose proof (H10 x y Hx Hy) as A. pose proof (H01 x y Hx Hy) as B. cbn [ev G10 G01] in A, B.
  set (W := Wk L (a 0%nat 0%nat x y) 2) in *. set (u := a 1%nat 0%nat x y) in *. set (v := a 0%nat 1%nat x y) in *.
  assert (N : W * Cconj W = 1) by (rewrite Cmult_conj; f_equal; nra).
  assert (A' : Cconj u = W * u + 1) by (rewrite A at 1; rewrite !Cconj_plus, !Cconj_conj, Cconj_RtoC; reflexivity).
  assert (B' : Cconj v = W * v - Ci) by (rewrite B at 1; rewrite !Cconj_plus, !Cconj_conj; apply Ceq; simpl; ring).
  rewrite Cconj_mult, A' in A. rewrite Cconj_mult, B' in B.
  assert (E1 : Cconj W = - RtoC 1).
  { replace (Cconj W) with (Cconj W * (W * u + 1) + 1 - (W * Cconj W) * u - 1) by ring. rewrite <- A, N. ring. }
  assert (E2 : Ci * Cconj W = Ci).
  { replace (Ci * Cconj W) with ((W * Cconj W) * v + Ci - (Cconj W * (W * v - Ci) + Ci)) by ring. rewrite <- B, N. ring. }
  rewrite E1 in E2. apply (f_equal snd) in E2. simpl in E2. lra.
Qed.
End BRANCH.
Lemma akl_solve (W t Q : C) : (1 - Cmod W ^ 2 <> 0)%R -> t = Cconj (W * t + Q) -> t = akl W Q.
Proof.
  intros N E. unfold akl, mu0.
  assert (E' : Cconj t = W * t + Q) by (rewrite E at 1; apply Cconj_conj).
  rewrite Cconj_plus, Cconj_mult, E' in E.
  assert (K : RtoC (1 - Cmod W ^ 2) * t = Cconj Q + Cconj W * Q).
  { rewrite RtoC_minus. replace (RtoC (Cmod W ^ 2)) with (W * Cconj W) by (rewrite Cmult_conj; f_equal; simpl; ring).
    replace ((1 - W * Cconj W) * t) with (t - W * Cconj W * t) by ring. rewrite E at 1. ring. }
  rewrite <- K. rewrite Cmult_assoc, <- RtoC_mult. replace (1 / (1 - Cmod W ^ 2) * (1 - Cmod W ^ 2))%R with 1%R by (field; exact N). ring.
Qed.
