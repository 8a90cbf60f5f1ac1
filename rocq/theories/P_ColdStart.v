(** The root finder from its default start, real coefficients: the estimates stay mirror images of each other (C78). *)
From Coq Require Import Reals List Bool Arith ZArith Lia Lra Permutation.
From Coquelicot Require Import Complex.
From Verif Require Import Base_R Base_List Base_C M_Utils M_Assembly M_PolySolver S_Poly P_Poly P_PolyRoots P_Symmetry P_PolySolver.
Import ListNotations.
Local Open Scope R_scope.

(** the place of the mirror image of the [k]-th of [n] points of the circle *)
Definition mirror (n k : nat) : nat := match k with O => O | _ => (n - k)%nat end.
Lemma mirror_lt n k : (k < n)%nat -> (mirror n k < n)%nat.
Proof. destruct k; cbn; lia. Qed.
Lemma mirror_mirror n k : (k < n)%nat -> mirror n (mirror n k) = k.
Proof. intros H. destruct k as [|k]; [reflexivity|]. unfold mirror at 2. destruct (n - S k)%nat eqn:E; [lia|]. cbn [mirror]. lia. Qed.
Lemma mirror_perm n : Permutation (map (mirror n) (seq 0 n)) (seq 0 n).
Proof.
  apply NoDup_Permutation_bis.
  - assert (G : forall l, NoDup l -> (forall k, In k l -> (k < n)%nat) -> NoDup (map (mirror n) l)).
    { induction l as [|x l IH]; intros N H; [constructor|]. inversion N; subst. cbn [map]. constructor.
      - intros I. apply in_map_iff in I. destruct I as (y & E & Hy). assert (y = x); [|congruence]. rewrite <- (mirror_mirror n y), E by (apply H; now right). apply mirror_mirror. apply H. now left.
      - apply IH; auto. intros k Hk. apply H. now right. }
    apply G; [apply seq_NoDup|]. intros k Hk. apply in_seq in Hk. lia.
  - rewrite map_length. lia.
  - intros x Hx. apply in_map_iff in Hx. destruct Hx as (y & <- & Hy). apply in_seq in Hy. apply in_seq. pose proof (mirror_lt n y). lia.
Qed.
Lemma nth_seq_map {A} (l : list A) d : l = map (fun i => nth i l d) (seq 0 (length l)).
Proof.
  apply (nth_ext _ _ d d); [now rewrite map_length, seq_length|]. intros i Hi. rewrite (nth_map_lt _ _ _ O) by (now rewrite seq_length). rewrite seq_nth by auto. reflexivity.
Qed.
Lemma sumC_perm l l' : Permutation l l' -> sumC l = sumC l'.
Proof. induction 1; cbn [sumC]; [reflexivity|congruence|ring|congruence]. Qed.
Lemma conj_perm (zs : list C) : (forall i, (i < length zs)%nat -> nth (mirror (length zs) i) zs (RtoC 0) = Cconj (nth i zs (RtoC 0))) -> Permutation (map Cconj zs) zs.
Proof.
  intros H. set (n := length zs) in *. rewrite (nth_seq_map zs (RtoC 0)) at 2. fold n. rewrite <- (mirror_perm n), map_map.
  rewrite (nth_seq_map zs (RtoC 0)) at 1. fold n. rewrite map_map. erewrite map_ext_in; [reflexivity|]. intros i Hi. apply in_seq in Hi. cbn beta. symmetry. apply H. lia.
Qed.

Lemma real_map (cs : list C) : (forall c, In c cs -> Im c = 0) -> map Cconj cs = cs.
Proof.
  intros H. induction cs as [|c t IH]; [reflexivity|]. cbn [map]. f_equal; [|apply IH; intros; apply H; now right]. specialize (H c (or_introl eq_refl)). apply Ceq; [reflexivity|]. unfold Cconj. unfold Im in *. cbn. rewrite H. ring.
Qed.
Lemma real_polyval cs z : (forall c, In c cs -> Im c = 0) -> polyval cs (Cconj z) = Cconj (polyval cs z).
Proof. intros H. rewrite !polyval_peval. rewrite <- (real_map cs H) at 1. apply peval_conj. Qed.
Lemma real_der cs : (forall c, In c cs -> Im c = 0) -> forall c, In c (polyder_coeffs cs) -> Im c = 0.
Proof.
  intros H c. unfold polyder_coeffs. destruct (_ =? _)%nat.
  - intros I. apply in_map_iff in I. now destruct I as (? & <- & _).
  - intros I. apply in_map_iff in I. destruct I as (k & <- & Hk). apply in_seq in Hk. assert (E : Im (nth k cs (RtoC 0)) = 0) by (apply H, nth_In; lia).
    unfold Cmult, RtoC, Im in *. cbn [fst snd]. cbn [snd] in E. rewrite E. ring.
Qed.
Lemma recip_conj z rs : recip_sum (Cconj z) (map Cconj rs) = Cconj (recip_sum z rs).
Proof.
  unfold recip_sum. induction rs as [|r rs IH]; [symmetry; apply Cconj_RtoC|]. cbn [map sumC]. rewrite Cconj_plus. f_equal; [|exact IH]. rewrite <- Cconj_minus.
  destruct (Ceq_dec (z - r)%C 0) as [E|N], (Ceq_dec (Cconj (z - r)%C) 0) as [E'|N'].
  - symmetry. apply Cconj_RtoC.
  - elim N'. rewrite E. apply Cconj_RtoC.
  - elim N. apply Cconj_inj. rewrite E'. symmetry. apply Cconj_RtoC.
  - rewrite Cconj_div, Cconj_RtoC. reflexivity.
Qed.
Lemma Cmod_conj z : Cmod (Cconj z) = Cmod z.
Proof. unfold Cmod, Cconj. cbn. f_equal. ring. Qed.

Section Real.
Variable cs : list C.
Hypothesis Hr : forall c, In c cs -> Im c = 0.
Variables eps tol : R.
Let dcs := polyder_coeffs cs.
Lemma update_conj rs z : Permutation (map Cconj rs) rs -> ea_update cs dcs eps rs (Cconj z) = option_map Cconj (ea_update cs dcs eps rs z).
Proof.
  intros P. unfold ea_update. unfold dcs. rewrite !real_polyval by (auto; now apply real_der).
  replace (recip_sum (Cconj z) rs) with (Cconj (recip_sum z rs)).
  2:{ rewrite <- recip_conj. unfold recip_sum. apply sumC_perm. apply Permutation_map. exact P. }
  rewrite <- Cconj_mult, <- Cconj_minus, Cmod_conj. set (den := (polyval (polyder_coeffs cs) z - polyval cs z * recip_sum z rs)%C).
  assert (E : (if Rltb (Cmod den) eps then Cconj (polyval (polyder_coeffs cs) z) else Cconj den) = Cconj (if Rltb (Cmod den) eps then polyval (polyder_coeffs cs) z else den)) by (destruct (Rltb (Cmod den) eps); reflexivity).
  rewrite E. set (q := if Rltb (Cmod den) eps then polyval (polyder_coeffs cs) z else den).
  destruct (Ceq_dec q 0) as [E1|N1], (Ceq_dec (Cconj q) 0) as [E2|N2]; cbn [option_map].
  - reflexivity.
  - elim N2. rewrite E1. apply Cconj_RtoC.
  - elim N1. apply Cconj_inj. rewrite E2. symmetry. apply Cconj_RtoC.
  - now rewrite Cconj_div.
Qed.
Definition cj (p : est * bool) : est * bool := (option_map Cconj (fst p), snd p).
Definition mirrored (st : list (est * bool)) : Prop := forall i, (i < length st)%nat -> nth (mirror (length st) i) st st_def = cj (nth i st st_def).
Lemma step1_conj st p : mirrored st -> step1 cs dcs eps tol (map fst st) (cj p) = cj (step1 cs dcs eps tol (map fst st) p).
Proof.
  intros M. destruct p as (r & dn). unfold step1, cj. cbn [fst snd].
  assert (U : upd_of cs dcs eps (map fst st) (option_map Cconj r) = option_map Cconj (upd_of cs dcs eps (map fst st) r)).
  { unfold upd_of. destruct (all_some (map fst st)) as [rs|] eqn:A; [|reflexivity]. destruct r as [z|]; [|reflexivity]. cbn [option_map]. apply update_conj.
    pose proof (all_some_spec _ _ A) as E. assert (Ln : length st = length rs) by (rewrite <- (map_length fst st), E; apply map_length).
    apply conj_perm. intros i Hi. rewrite <- Ln in Hi. pose proof (M i Hi) as Mi. apply (f_equal fst) in Mi. unfold cj in Mi. cbn [fst] in Mi.
    assert (N : forall j, (j < length st)%nat -> fst (nth j st st_def) = Some (nth j rs (RtoC 0))).
    { intros j Hj. rewrite <- (map_nth fst). cbn [fst st_def]. rewrite E. rewrite (nth_map_lt _ _ _ (RtoC 0)) by lia. reflexivity. }
    rewrite !N in Mi by (auto; now apply mirror_lt). cbn [option_map] in Mi. injection Mi. rewrite Ln. auto. }
  rewrite U. f_equal.
  - destruct dn; [reflexivity|]. destruct (upd_of _ _ _ _ r) as [d|], r as [z|]; cbn [option_map est_minus]; try reflexivity. now rewrite Cconj_minus.
  - f_equal. destruct (upd_of _ _ _ _ r) as [d|]; cbn [option_map est_small]; [now rewrite Cmod_conj|reflexivity].
Qed.
Lemma body_mirrored st : mirrored st -> mirrored (ea_body cs dcs eps tol st).
Proof.
  intros M i Hi. rewrite ea_body_length in *. rewrite !ea_body_nth by (auto; now apply mirror_lt). rewrite (M i Hi). now apply step1_conj.
Qed.
Lemma iter_mirrored k st : mirrored st -> mirrored (ea_iter cs dcs eps tol k st).
Proof. intros M. unfold ea_iter. induction k; [exact M|]. cbn [Nat.iter]. now apply body_mirrored. Qed.
End Real.

Lemma initial_mirrored cs : mirrored (st0 (initial_circle cs)).
Proof.
  intros i Hi. unfold st0 in *. rewrite map_length in *. rewrite !(nth_map_lt _ _ _ (RtoC 0)) by (auto; now apply mirror_lt). unfold cj. cbn [fst snd option_map]. do 2 f_equal.
  rewrite initial_circle_length in *. set (n := (length cs - 1)%nat) in *. pose proof (mirror_lt n i Hi) as Hm. unfold initial_circle. fold n. rewrite !(nth_map_lt _ _ _ O) by (rewrite seq_length; auto). rewrite !seq_nth by auto.
  rewrite !Nat.add_0_l, Cconj_mult, Cconj_RtoC, Cconj_cexpi. f_equal. destruct i as [|i].
  - cbn [mirror INR]. f_equal. lra.
  - cbn [mirror]. rewrite minus_INR by lia. assert (P : INR n <> 0) by (apply not_0_INR; lia). replace (2 * PI * (INR n - INR (S i)) / INR n)%R with (- (2 * PI * INR (S i) / INR n) + 2 * PI)%R by (field; auto).
    unfold cexpi. f_equal; rewrite ?cos_plus, ?sin_plus, cos_2PI, sin_2PI; ring.
Qed.
Lemma clean1_conj tol cs z : clean1 tol cs (Cconj z) = Cconj (clean1 tol cs z).
Proof.
  unfold clean1. destruct (forallb _ cs); [|reflexivity]. replace (Im (Cconj z)) with (- Im z) by reflexivity. rewrite Rabs_Ropp. destruct (Rltb _ _); apply Ceq; unfold Cconj, Re, Im; cbn; try reflexivity; ring.
Qed.
Lemma cold_mirrored cs tol m i : (forall c, In c cs -> Im c = 0) -> (i < length cs - 1)%nat ->
  nth (mirror (length cs - 1) i) (poly_roots_EA_from cs (initial_circle cs) tol m) None = option_map Cconj (nth i (poly_roots_EA_from cs (initial_circle cs) tol m) None).
Proof.
  intros Hr Hi. rewrite !from_nth. destruct (ea_loop_spec cs (polyder_coeffs cs) (eps64 * 10) tol m (st0 (initial_circle cs))) as (_ & E & _). rewrite E.
  set (it := fst (ea_loop _ _ _ _ _ _)). pose proof (iter_mirrored cs Hr (eps64 * 10) tol it _ (initial_mirrored cs)) as M. specialize (M i). rewrite ea_iter_length in M. assert (Ls : length (st0 (initial_circle cs)) = (length cs - 1)%nat) by (unfold st0; now rewrite map_length, initial_circle_length). rewrite Ls in M. specialize (M Hi). rewrite M.
  unfold cj. cbn [fst]. destruct (fst (nth i _ st_def)) as [z|]; cbn [option_map]; [now rewrite clean1_conj|reflexivity].
Qed.
