(** Three lenses on a line and the default start of the root finder: property C78. *)
From Coq Require Import Reals List Lra Lia ZArith.
From Coquelicot Require Import Complex.
From Verif Require Import Base_R Base_List Base_C M_Utils M_Coeffs M_PolySolver M_PointSource S_PointSource S_Poly
  P_Lens P_Poly P_PolyRoots P_PointSource P_Images P_Critical P_Symmetry Thm_WarmStart P_ColdStart Thm_PointSource Thm_ColdStart.
Import ListNotations.
Local Open Scope R_scope.

(** a source on the line of three masses has a real image in each gap between them and one beyond the last *)
Section Line.
Variables (w A B D mA mB mD : R).
Hypothesis (HAB : A < B) (HBD : B < D) (PA : 0 < mA) (PB : 0 < mB) (PD : 0 < mD).
Let f (x : R) : R := (x - w) * ((x - A) * (x - B) * (x - D)) - mA * ((x - B) * (x - D)) - mB * ((x - A) * (x - D)) - mD * ((x - A) * (x - B)).
Lemma line_images : exists x1 x2 x3, A < x1 < B /\ B < x2 < D /\ D < x3 /\
  forall x, x = x1 \/ x = x2 \/ x = x3 -> x - w = mA / (x - A) + mB / (x - B) + mD / (x - D).
Proof.
  assert (Cf : continuity f) by (unfold f; reg).
  assert (FA : f A < 0). { replace (f A) with (- (mA * ((B - A) * (D - A)))) by (unfold f; ring). assert (0 < mA * ((B - A) * (D - A))) by (repeat apply Rmult_lt_0_compat; lra). lra. }
  assert (FB : 0 < f B). { replace (f B) with (mB * ((B - A) * (D - B))) by (unfold f; ring). repeat apply Rmult_lt_0_compat; lra. }
  assert (FD : f D < 0). { replace (f D) with (- (mD * ((D - A) * (D - B)))) by (unfold f; ring). assert (0 < mD * ((D - A) * (D - B))) by (repeat apply Rmult_lt_0_compat; lra). lra. }
  set (t := mA + mB + mD + 1). set (M := Rmax w D + t).
  assert (M1 : t <= M - w) by (unfold M; pose proof (Rmax_l w D); lra). assert (M2 : t <= M - D) by (unfold M; pose proof (Rmax_r w D); lra).
  assert (FM : 0 < f M).
  { set (g := M - D) in *. assert (T1 : 1 < t) by (unfold t; lra). assert (X1 : 0 < g) by lra. set (b := M - B). assert (Xb : g < b) by (unfold b, g; lra). set (a := M - A). assert (Xa : b < a) by (unfold a, b; lra).
    assert (E : f M = (M - w) * (a * b * g) - mA * (b * g) - mB * (a * g) - mD * (a * b)) by reflexivity. rewrite E.
    assert (Q0 : 0 < a * b) by (apply Rmult_lt_0_compat; lra). assert (Q1 : b * g <= a * b) by (rewrite (Rmult_comm a b); apply Rmult_le_compat_l; lra). assert (Q2 : a * g <= a * b) by (apply Rmult_le_compat_l; lra).
    assert (Q3 : mA * (b * g) <= mA * (a * b)) by (apply Rmult_le_compat_l; lra). assert (Q4 : mB * (a * g) <= mB * (a * b)) by (apply Rmult_le_compat_l; lra).
    assert (Q5 : t * t <= (M - w) * g) by (apply Rmult_le_compat; lra). assert (Q6 : t * (a * b) < t * t * (a * b)) by (rewrite Rmult_assoc; rewrite <- (Rmult_1_l (t * (a * b))) at 1; apply Rmult_lt_compat_r; [apply Rmult_lt_0_compat; lra|lra]).
    assert (Q7 : t * t * (a * b) <= (M - w) * g * (a * b)) by (apply Rmult_le_compat_r; lra). assert (Q8 : mA * (a * b) + mB * (a * b) + mD * (a * b) <= t * (a * b)) by (unfold t; nra).
    replace ((M - w) * (a * b * g)) with ((M - w) * g * (a * b)) by ring. lra. }
  assert (MD : D < M) by (assert (0 < t) by (unfold t; lra); lra).
  destruct (IVT f A B Cf HAB FA FB) as (x1 & B1 & E1). destruct (IVT (- f)%F B D (continuity_opp f Cf) HBD ltac:(unfold opp_fct; lra) ltac:(unfold opp_fct; lra)) as (x2 & B2 & E2). destruct (IVT f D M Cf MD FD FM) as (x3 & B3 & E3).
  assert (E2' : f x2 = 0) by (unfold opp_fct in E2; lra).
  assert (N1 : A < x1 < B) by (split; apply Rnot_le_lt; intros N; [replace x1 with A in E1 by lra|replace x1 with B in E1 by lra]; lra).
  assert (N2 : B < x2 < D) by (split; apply Rnot_le_lt; intros N; [replace x2 with B in E2' by lra|replace x2 with D in E2' by lra]; lra).
  assert (N3 : D < x3) by (apply Rnot_le_lt; intros N; replace x3 with D in E3 by lra; lra).
  exists x1, x2, x3. split; auto. split; auto. split; auto. intros x Hx.
  assert (G : f x = 0 /\ x - A <> 0 /\ x - B <> 0 /\ x - D <> 0) by (destruct Hx as [->|[->| ->]]; repeat split; auto; intros N; lra).
  destruct G as (G & GA & GB & GD). apply (Rmult_eq_reg_r ((x - A) * (x - B) * (x - D))); [|repeat apply Rmult_integral_contrapositive_currified; auto].
  transitivity (mA * ((x - B) * (x - D)) + mB * ((x - A) * (x - D)) + mD * ((x - A) * (x - B))); [unfold f in G; lra|field; auto].
Qed.
End Line.

Section OnLine.
Variables (s q q3 r3 psi w : R).
Hypothesis (Hs : 0 < s) (Hq : 0 < q) (Hq3 : 0 < q3) (Hpsi : sin psi = 0).
Let a := 0.5 * s. Let e1 := q / (1 + q + q3). Let e2 := 1 / (1 + q + q3). Let y := r3 * cos psi.
Let p3 := from_midpoint s q r3 psi.
Hypothesis (D1 : p3 <> RtoC (- s * q / (1 + q))) (D2 : p3 <> RtoC (s / (1 + q))).
Hypothesis Hw : off_lens_positions (triple_lens s q q3 p3) (RtoC w).
Let c := x_cm a q.
Let V := (RtoC w - RtoC c)%C.
Let cs := fst (poly_coeffs_triple_CM V a (third_lens r3 psi) e1 e2).
Lemma line_third : third_lens r3 psi = RtoC y.
Proof. unfold third_lens, cexpi. rewrite Hpsi. unfold y. apply Ceq; cbn; ring. Qed.
Lemma line_mass : 0 < e1 /\ 0 < e2 /\ 0 < 1 - e1 - e2.
Proof.
  unfold e1, e2. repeat split; try (apply Rdiv_lt_0_compat; lra). replace (1 - q / (1 + q + q3) - 1 / (1 + q + q3)) with (q3 / (1 + q + q3)) by (field; lra). apply Rdiv_lt_0_compat; lra.
Qed.
Lemma line_apart : y <> a /\ y <> - a.
Proof.
  assert (E : p3 = RtoC (y + c)) by (unfold p3; rewrite from_midpoint_value by lra; rewrite line_third, <- RtoC_plus; reflexivity).
  split; intros N; [apply D2|apply D1]; rewrite E, N; f_equal; unfold c, a, x_cm; change 0.5 with (5 / 10); field; lra.
Qed.
Lemma line_real x : In x cs -> Im x = 0.
Proof.
  intros Hin. assert (E : map Cconj cs = cs).
  { unfold cs. rewrite line_third. pose proof (coeffs3_conj V a (RtoC y) e1 e2) as K. rewrite Cconj_RtoC in K. replace (Cconj V) with V in K by (unfold V; now rewrite Cconj_minus, !Cconj_RtoC). rewrite K at 2. reflexivity. }
  assert (F : Cconj x = x). { clear - E Hin. induction cs as [|b l IH]; [destruct Hin|]. injection E as E1 E2. destruct Hin as [<-|Hin]; auto. }
  apply (f_equal snd) in F. unfold Im. destruct x as (u & v). cbn in *. lra.
Qed.
Lemma line_hd : hd (RtoC 0) cs <> RtoC 0.
Proof. exact (tp0 s q q3 r3 psi (RtoC w) Hq Hq3 Hw). Qed.
Lemma line_root x : x <> a -> x <> - a -> x <> y -> x - (w - c) = e1 / (x - a) + e2 / (x + a) + (1 - e1 - e2) / (x - y) ->
  peval cs (RtoC x - triple_shift_cm a (third_lens r3 psi) e1 e2)%C = RtoC 0.
Proof.
  intros N1 N2 N3 E. assert (I : is_image (triple_mid a e1 e2 (from_com r3 psi)) V (RtoC x)).
  { replace (from_com r3 psi) with (third_lens r3 psi) by (unfold third_lens, from_com, cexpi; apply Ceq; cbn; ring). rewrite line_third. split.
    - intros m p [H|[H|[H|[]]]]; injection H as <- <-; intros K; apply RtoC_inj in K; auto.
    - unfold lens_map, triple_mid, deflection. rewrite <- !RtoC_minus, !Cconj_RtoC, <- !RtoC_div by (intros K; apply N1 || apply N2 || apply N3; lra). unfold V. rewrite Cplus_0_r, <- !RtoC_plus, <- !RtoC_minus. f_equal.
      replace (x - - a) with (x + a) by ring. lra. }
  pose proof (C06_triple_image_is_root _ _ _ _ _ _ _ I) as K. exact K.
Qed.
Lemma line_default : forall rs d tol max_iter, splits cs rs -> 0 < d -> separated d rs -> ~ default_start_finds cs rs d tol max_iter.
Proof.
  intros rs d tol m S Hd Sep. pose proof line_hd as H0. destruct line_mass as (P1 & P2 & P3). destruct line_apart as (Y1 & Y2). assert (Ha : - a < a) by (unfold a; lra).
  assert (L10 : length rs = 10%nat) by (rewrite (splits_length cs rs H0 S); reflexivity).
  set (sh := triple_shift_cm a (third_lens r3 psi) e1 e2).
  assert (R : forall x, x <> a -> x <> - a -> x <> y -> x - (w - c) = e1 / (x - a) + e2 / (x + a) + (1 - e1 - e2) / (x - y) -> exists i, (i < length rs)%nat /\ nth i rs (RtoC 0) = (RtoC x - sh)%C).
  { intros x N1 N2 N3 E. apply nth_of. apply (splits_root cs rs); auto. now apply line_root. }
  assert (ImSh : Im sh = 0) by (unfold sh; rewrite line_third; unfold triple_shift_cm, Im; cbn; ring).
  assert (X : exists x1 x2 x3, x1 < x2 < x3 /\ forall x, x = x1 \/ x = x2 \/ x = x3 -> x <> a /\ x <> - a /\ x <> y /\ x - (w - c) = e1 / (x - a) + e2 / (x + a) + (1 - e1 - e2) / (x - y)).
  { destruct (Rlt_le_dec y (- a)) as [C1|C1]; [|destruct (Rlt_le_dec y a) as [C2|C2]].
    - destruct (line_images (w - c) y (- a) a (1 - e1 - e2) e2 e1 C1 Ha P3 P2 P1) as (x1 & x2 & x3 & B1 & B2 & B3 & E). exists x1, x2, x3. split; [lra|]. intros x Hx. specialize (E x Hx). replace (x - - a) with (x + a) in E by ring. repeat split; try (intros N; destruct Hx as [Hx|[Hx|Hx]]; lra). rewrite E. ring.
    - destruct (line_images (w - c) (- a) y a e2 (1 - e1 - e2) e1 ltac:(lra) C2 P2 P3 P1) as (x1 & x2 & x3 & B1 & B2 & B3 & E). exists x1, x2, x3. split; [lra|]. intros x Hx. specialize (E x Hx). replace (x - - a) with (x + a) in E by ring. repeat split; try (intros N; destruct Hx as [Hx|[Hx|Hx]]; lra). rewrite E. ring.
    - destruct (line_images (w - c) (- a) a y e2 e1 (1 - e1 - e2) Ha ltac:(lra) P2 P1 P3) as (x1 & x2 & x3 & B1 & B2 & B3 & E). exists x1, x2, x3. split; [lra|]. intros x Hx. specialize (E x Hx). replace (x - - a) with (x + a) in E by ring. repeat split; try (intros N; destruct Hx as [Hx|[Hx|Hx]]; lra). rewrite E. ring. }
  destruct X as (x1 & x2 & x3 & B & E).
  assert (Q : forall x, x = x1 \/ x = x2 \/ x = x3 -> exists i, (i < length rs)%nat /\ nth i rs (RtoC 0) = (RtoC x - sh)%C) by (intros x Hx; destruct (E x Hx) as (A1 & A2 & A3 & A4); now apply R).
  destruct (Q x1 ltac:(auto)) as (i & Hi & Ei). destruct (Q x2 ltac:(auto)) as (j & Hj & Ej). destruct (Q x3 ltac:(auto)) as (k & Hk & Ek).
  assert (Rl : forall i x, nth i rs (RtoC 0) = (RtoC x - sh)%C -> Im (nth i rs (RtoC 0)) = 0) by (intros i' x ->; unfold Im, Cminus, Cplus, Copp, RtoC in *; cbn [fst snd]; lra).
  assert (Df : forall i j u v, nth i rs (RtoC 0) = (RtoC u - sh)%C -> nth j rs (RtoC 0) = (RtoC v - sh)%C -> u <> v -> i <> j).
  { intros i' j' u v Eu Ev N ->. apply N. apply RtoC_inj. rewrite Eu in Ev. transitivity (RtoC u - sh + sh)%C; [ring|]. rewrite Ev. ring. }
  pose proof (Df i j x1 x2 Ei Ej ltac:(lra)). pose proof (Df i k x1 x3 Ei Ek ltac:(lra)). pose proof (Df j k x2 x3 Ej Ek ltac:(lra)). apply Rl in Ei. apply Rl in Ej. apply Rl in Ek.
  apply C78_even_degree_refuted; auto; [cbn; lia|exact line_real|rewrite L10; exists 5%nat; reflexivity|]. left.
  destruct (Nat.lt_ge_cases i j), (Nat.lt_ge_cases j k), (Nat.lt_ge_cases i k);
    first [exists i, j, k; repeat split; auto; lia | exists i, k, j; repeat split; auto; lia | exists j, i, k; repeat split; auto; lia | exists j, k, i; repeat split; auto; lia | exists k, i, j; repeat split; auto; lia | exists k, j, i; repeat split; auto; lia].
Qed.
Lemma line_critical : forall rs d tol max_iter npts, (2 <= npts)%nat ->
  let cc := poly_coeffs_critical_triple (nth 0 (linspace (- PI) PI npts) 0) a (third_lens r3 psi) e1 e2 in
  splits cc rs -> 0 < d -> separated d rs -> ~ default_start_finds cc rs d tol max_iter.
Proof.
  intros rs d tol m npts Hn cc S Hd Sep. destruct line_mass as (P1 & P2 & P3). destruct line_apart as (Y1 & Y2). assert (Ha : 0 < a) by (unfold a; lra).
  assert (Ph : nth 0 (linspace (- PI) PI npts) 0 = - PI).
  { unfold linspace. destruct npts as [|[|n]]; [lia|lia|]. rewrite (nth_map_lt _ _ _ O) by (rewrite seq_length; lia). rewrite seq_nth by lia. rewrite Nat.add_0_l. cbn [INR]. unfold Rdiv. rewrite ?Rmult_0_l, ?Rmult_0_r. ring. }
  assert (X : cexpi (- - PI) = RtoC (Ropp 1)) by (unfold cexpi, RtoC; rewrite Ropp_involutive, cos_PI, sin_PI; reflexivity).
  assert (Ec : cc = poly_coeffs_critical_triple (- PI) a (RtoC y) e1 e2) by (unfold cc; now rewrite Ph, line_third). clearbody cc. subst cc.
  set (cc := poly_coeffs_critical_triple (- PI) a (RtoC y) e1 e2) in *.
  assert (H0 : hd (RtoC 0) cc <> RtoC 0) by (unfold cc, poly_coeffs_critical_triple; cbn [hd]; rewrite X; apply RtoC_neq0; lra).
  assert (L6 : length rs = 6%nat) by (rewrite (splits_length cc rs H0 S); reflexivity).
  apply C78_even_degree_refuted; auto; [cbn; lia| |rewrite L6; exists 3%nat; reflexivity|].
  - unfold cc, poly_coeffs_critical_triple. rewrite X. intros x [<-|[<-|[<-|[<-|[<-|[<-|[<-|[]]]]]]]]; unfold Im; cbn; ring.
  - right. intros i Hi R0. assert (I : In (nth i rs (RtoC 0)) rs) by now apply nth_In. apply (splits_root cc rs) in I; auto. destruct (nth i rs (RtoC 0)) as (x & v) eqn:Ez. unfold Im in R0. cbn [snd] in R0. subst v. change (x, 0) with (RtoC x) in I. unfold cc in I.
    assert (Z1 : a - y <> 0) by (intros N; apply Y1; lra). assert (Z2 : a + y <> 0) by (intros N; apply Y2; lra). assert (Z3 : y - a <> 0) by (intros N; apply Y1; lra). assert (Z4 : y + a <> 0) by (intros N; apply Y2; lra). assert (Z5 : 2 * a <> 0) by lra.
    assert (SQ : forall u, u <> 0 -> 0 < u ^ 2) by (intros u Hu; rewrite <- Rsqr_pow2; now apply Rlt_0_sqr).
    destruct (Req_dec x a) as [->|Na].
    { rewrite crit3_at_a in I. rewrite <- RtoC_opp, <- RtoC_minus, <- !RtoC_mult, <- RtoC_pow, <- RtoC_mult in I. apply RtoC_inj in I. pose proof (SQ (2 * a * (a - y)) ltac:(apply Rmult_integral_contrapositive_currified; assumption)) as T2. set (T := (2 * a * (a - y)) ^ 2) in *. clearbody T. nra. }
    destruct (Req_dec x (- a)) as [->|Nb].
    { rewrite RtoC_opp, crit3_at_ma in I. rewrite <- RtoC_opp, <- RtoC_plus, <- !RtoC_mult, <- RtoC_pow, <- RtoC_mult in I. apply RtoC_inj in I. pose proof (SQ (2 * a * (a + y)) ltac:(apply Rmult_integral_contrapositive_currified; assumption)) as T2. set (T := (2 * a * (a + y)) ^ 2) in *. clearbody T. nra. }
    destruct (Req_dec x y) as [->|Nc].
    { rewrite crit3_at_p3 in I. rewrite <- !RtoC_minus, <- RtoC_plus, <- RtoC_opp, <- !RtoC_mult, <- RtoC_pow, <- RtoC_mult in I. apply RtoC_inj in I. pose proof (SQ ((y - a) * (y + a)) ltac:(apply Rmult_integral_contrapositive_currified; assumption)) as T2. set (T := ((y - a) * (y + a)) ^ 2) in *. clearbody T. nra. }
    apply root_phase3 in I; [|rewrite <- RtoC_minus; apply RtoC_neq0; intros N; apply Na; lra|rewrite <- RtoC_plus; apply RtoC_neq0; intros N; apply Nb; lra|rewrite <- RtoC_minus; apply RtoC_neq0; intros N; apply Nc; lra].
    pose proof (SQ (x - a) ltac:(intros ?; first [lra | apply Y1; lra | apply Y2; lra | apply Na; lra | apply Nb; lra | apply Nc; lra])). pose proof (SQ (x - - a) ltac:(intros ?; first [lra | apply Y1; lra | apply Y2; lra | apply Na; lra | apply Nb; lra | apply Nc; lra])). pose proof (SQ (x - y) ltac:(intros ?; first [lra | apply Y1; lra | apply Y2; lra | apply Na; lra | apply Nb; lra | apply Nc; lra])).
    unfold triple_mid, shear in I. rewrite <- !RtoC_minus, !Cconj_RtoC, <- !RtoC_pow, <- !RtoC_div, Cplus_0_r, <- !RtoC_plus in I by lra.
    apply (f_equal fst) in I. cbn [fst RtoC cexpi] in I. rewrite cos_neg, cos_PI in I.
    assert (0 < e1 / (x - a) ^ 2) by (apply Rdiv_lt_0_compat; lra). assert (0 < e2 / (x - - a) ^ 2) by (apply Rdiv_lt_0_compat; lra). assert (0 < (1 - e1 - e2) / (x - y) ^ 2) by (apply Rdiv_lt_0_compat; lra). lra.
Qed.
End OnLine.

(** every three lenses on a line and every source on that line: at least three of the ten roots are real, two of the starting points are *)
Theorem C78_triple_axis_refuted : forall s q q3 r3 psi w rs d tol max_iter, 0 < s -> 0 < q -> 0 < q3 -> sin psi = 0 ->
  let p3 := from_midpoint s q r3 psi in p3 <> RtoC (- s * q / (1 + q)) -> p3 <> RtoC (s / (1 + q)) -> off_lens_positions (triple_lens s q q3 p3) (RtoC w) ->
  let cs := fst (poly_coeffs_triple_CM (RtoC w - RtoC (x_cm (0.5 * s) q))%C (0.5 * s) (third_lens r3 psi) (q / (1 + q + q3)) (1 / (1 + q + q3))) in
  splits cs rs -> 0 < d -> separated d rs -> ~ default_start_finds cs rs d tol max_iter.
Proof.
  intros s q q3 r3 psi w rs d tol m Hs Hq Hq3 Hp p3 D1 D2 Hw cs. exact (line_default s q q3 r3 psi w Hs Hq Hq3 Hp D1 D2 Hw rs d tol m).
Qed.
Print Assumptions C78_triple_axis_refuted.
(** the first point of every critical curve of three lenses on a line, phase - PI: a real sextic without real roots *)
Theorem C78_triple_critical_refuted : forall s q q3 r3 psi rs d tol max_iter npts, 0 < s -> 0 < q -> 0 < q3 -> sin psi = 0 -> (2 <= npts)%nat ->
  let p3 := from_midpoint s q r3 psi in p3 <> RtoC (- s * q / (1 + q)) -> p3 <> RtoC (s / (1 + q)) ->
  let cs := poly_coeffs_critical_triple (nth 0 (linspace (- PI) PI npts) 0) (0.5 * s) (third_lens r3 psi) (q / (1 + q + q3)) (1 / (1 + q + q3)) in
  splits cs rs -> 0 < d -> separated d rs -> ~ default_start_finds cs rs d tol max_iter.
Proof.
  intros s q q3 r3 psi rs d tol m npts Hs Hq Hq3 Hp Hn p3 D1 D2 cs. exact (line_critical s q q3 r3 psi Hs Hq Hq3 Hp D1 D2 rs d tol m npts Hn).
Qed.
Print Assumptions C78_triple_critical_refuted.

(** equal masses at -a, 0 and a with a^2 = 1/3: the six roots are i a, - i a and (+- h, +- h) with h^2 = 1/6 *)
Definition line_h : R := sqrt (1 / 6).
Definition line_a : R := sqrt (1 / 3).
Definition line_rs : list C := [(0, line_a); (0, - line_a); (line_h, line_h); (line_h, - line_h); (- line_h, line_h); (- line_h, - line_h)].
Example C78_triple_worked : forall tol max_iter npts, (2 <= npts)%nat ->
  let cs := poly_coeffs_critical_triple (nth 0 (linspace (- PI) PI npts) 0) (0.5 * (2 * line_a)) (third_lens 0 0) (1 / (1 + 1 + 1)) (1 / (1 + 1 + 1)) in
  splits cs line_rs /\ separated (1 / 10) line_rs /\ ~ default_start_finds cs line_rs (1 / 10) tol max_iter.
Proof.
  intros tol m npts Hn cs.
  assert (A2 : line_a * line_a = 1 / 3) by (apply sqrt_sqrt; lra). assert (H2 : line_h * line_h = 1 / 6) by (apply sqrt_sqrt; lra).
  assert (A0 : 0 < line_a) by (apply sqrt_lt_R0; lra). assert (H0 : 0 < line_h) by (apply sqrt_lt_R0; lra).
  assert (A1 : 1 / 2 < line_a) by nra. assert (H1 : 2 / 5 < line_h < 1 / 2) by nra.
  assert (Sp : splits cs line_rs).
  { assert (Ph : nth 0 (linspace (- PI) PI npts) 0 = - PI).
    { unfold linspace. destruct npts as [|[|n]]; [lia|lia|]. rewrite (nth_map_lt _ _ _ O) by (rewrite seq_length; lia). rewrite seq_nth by lia. rewrite Nat.add_0_l. cbn [INR]. unfold Rdiv. rewrite ?Rmult_0_l, ?Rmult_0_r. ring. }
    assert (X : cexpi (- - PI) = RtoC (Ropp 1)) by (unfold cexpi, RtoC; rewrite Ropp_involutive, cos_PI, sin_PI; reflexivity).
    assert (T : third_lens 0 0 = RtoC 0) by (unfold third_lens; apply Cmult_0_l).
    intros z. unfold cs, poly_coeffs_critical_triple. rewrite Ph, X, T. cbn [peval length hd map prodC line_rs].
    assert (E1 : ((z - (0, line_a)%R) * (z - (0, - line_a)%R) = z * z + RtoC (1 / 3))%C) by (rewrite <- A2; destruct z as [x y]; apply Ceq; cbn; ring).
    assert (E2 : ((z - (line_h, line_h)%R) * (z - (- line_h, - line_h)%R) = z * z - (0, 1 / 3)%R)%C) by (replace (1 / 3) with (2 * (line_h * line_h)) by lra; destruct z as [x y]; apply Ceq; cbn; ring).
    assert (E3 : ((z - (line_h, - line_h)%R) * (z - (- line_h, line_h)%R) = z * z + (0, 1 / 3)%R)%C) by (replace (1 / 3) with (2 * (line_h * line_h)) by lra; destruct z as [x y]; apply Ceq; cbn; ring).
    transitivity (RtoC (Ropp 1) * (((z - (0, line_a)%R) * (z - (0, - line_a)%R)) * ((z - (line_h, line_h)%R) * (z - (- line_h, - line_h)%R)) * ((z - (line_h, - line_h)%R) * (z - (- line_h, line_h)%R))))%C; [|ring].
    rewrite E1, E2, E3. assert (EA : (RtoC (0.5 * (2 * line_a)) * RtoC (0.5 * (2 * line_a)) = RtoC (1 / 3))%C) by (rewrite <- RtoC_mult; f_equal; lra).
    
    set (b := RtoC (0.5 * (2 * line_a))) in *. assert (Et : RtoC (1 / (1 + 1 + 1)) = RtoC (1 / 3)) by (f_equal; lra). rewrite Et.
    assert (E9 : ((0, 1 / 3)%R * (0, 1 / 3)%R = - (RtoC (1 / 3) * RtoC (1 / 3)))%C) by (apply Ceq; cbn; ring).
    transitivity (RtoC (Ropp 1) * ((z * z + RtoC (1 / 3)) * (z * z * (z * z) - (0, 1 / 3)%R * (0, 1 / 3)%R)))%C; [|ring]. rewrite E9.
    assert (M1 : RtoC (Ropp 1) = (- (1))%C) by (now rewrite RtoC_opp). rewrite M1.
    transitivity (- (z * z * z * z * z * z) + (2 * (b * b) - 1) * (z * z * z * z) + (- ((b * b) * (b * b)) - 6 * (b * b) * RtoC (1 / 3) + 2 * (b * b)) * (z * z) + (2 * RtoC (1 / 3) - 1) * ((b * b) * (b * b)))%C; [ring|]. rewrite EA.
    assert (T3 : (3 * RtoC (1 / 3) - 1 = 0)%C) by (apply Ceq; cbn; lra). set (t := RtoC (1 / 3)) in *.
    transitivity (- (1) * ((z * z + t) * (z * z * (z * z) - - (t * t))) + (3 * t - 1) * (z * z * z * z - 2 * t * (z * z) + t * t))%C; [ring|]. rewrite T3. ring. }
  assert (Se : separated (1 / 10) line_rs). { assert (G : forall (u v : C) i, (i = fst \/ i = snd) -> 1 / 10 <= Rabs (i u - i v) -> 1 / 10 <= Cmod (u - v)%C).
    { intros u v i Hi Hu. eapply Rle_trans; [exact Hu|]. eapply Rle_trans; [|apply Rmax_Cmod]. destruct Hi as [-> | ->]; [apply Rmax_l|apply Rmax_r]. }
    intros i j Hi Hj N. cbn [length line_rs] in Hi, Hj.
    do 6 (destruct i as [|i]; [do 6 (destruct j as [|j]; [cbn [nth line_rs]; first [lia | apply (G _ _ fst); [now left|]; cbn [fst snd]; unfold Rabs; destruct (Rcase_abs _); lra | apply (G _ _ snd); [now right|]; cbn [fst snd]; unfold Rabs; destruct (Rcase_abs _); lra]|]); lia|]). lia. }
  split; auto. split; auto. apply (C78_triple_critical_refuted (2 * line_a) 1 1 0 0); try lra; auto; [apply sin_0| |].
  - rewrite from_midpoint_value by lra. replace (third_lens 0 0) with (RtoC 0) by (unfold third_lens; symmetry; apply Cmult_0_l). rewrite <- RtoC_plus. intros E. apply RtoC_inj in E. unfold x_cm in E. lra.
  - rewrite from_midpoint_value by lra. replace (third_lens 0 0) with (RtoC 0) by (unfold third_lens; symmetry; apply Cmult_0_l). rewrite <- RtoC_plus. intros E. apply RtoC_inj in E. unfold x_cm in E. lra.
Qed.
