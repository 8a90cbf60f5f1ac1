(** Proofs about M_ExtSource: interpolation and angular sums. *)
From Coq Require Import Reals List Bool Arith ZArith Lia Lra Psatz.
From Coquelicot Require Import Complex.
From Verif Require Import Base_R Base_List Base_C M_Utils P_Utils M_PointSource M_Limb P_Limb M_MergeArea M_ExtSource.
Import ListNotations.
Local Open Scope R_scope.

(** ** cubic_interp *)
Definition cubic (a0 a1 a2 a3 x : R) : R := a0 + a1 * x + a2 * x ^ 2 + a3 * x ^ 3.
Definition distinct4 (nd : four) : Prop :=
  let '(a, b, c, d) := nd in a <> b /\ a <> c /\ a <> d /\ b <> c /\ b <> d /\ c <> d.

Lemma odiv_some n d : d <> 0 -> odiv n d = Some (n / d).
Proof. intros H. unfold odiv. destruct (Reqb_spec d 0); [contradiction|auto]. Qed.

Lemma hat_diff u v xm sc : sc <> 0 -> (u - xm) / sc - (v - xm) / sc = (u - v) / sc.
Proof. intros. field. auto. Qed.

(** the value with all denominators written out *)
Definition lagr (e sc x x0 x1 x2 x3 y0 y1 y2 y3 : R) : R :=
  y0 * ((x - x1) * (x - x2) * (x - x3) / ((x0 - x1 + e * sc) * (x0 - x2 + e * sc) * (x0 - x3 + e * sc))) +
  y1 * ((x - x0) * (x - x2) * (x - x3) / ((x1 - x0 + e * sc) * (x1 - x2 + e * sc) * (x1 - x3 + e * sc))) +
  y2 * ((x - x0) * (x - x1) * (x - x3) / ((x2 - x0 + e * sc) * (x2 - x1 + e * sc) * (x2 - x3 + e * sc))) +
  y3 * ((x - x0) * (x - x1) * (x - x2) / ((x3 - x0 + e * sc) * (x3 - x1 + e * sc) * (x3 - x2 + e * sc))).
Definition ok4 (es : R) (nd : four) : Prop :=
  let '(a, b, c, d) := nd in
  a - b + es <> 0 /\ a - c + es <> 0 /\ a - d + es <> 0 /\ b - a + es <> 0 /\ b - c + es <> 0 /\ b - d + es <> 0 /\
  c - a + es <> 0 /\ c - b + es <> 0 /\ c - d + es <> 0 /\ d - a + es <> 0 /\ d - b + es <> 0 /\ d - c + es <> 0.

Lemma interp_at_val xm sc e x x0 x1 x2 x3 y0 y1 y2 y3 : sc <> 0 -> ok4 (e * sc) (x0, x1, x2, x3) ->
  interp_at xm sc e x (x0, x1, x2, x3) y0 y1 y2 y3 = Some (lagr e sc x x0 x1 x2 x3 y0 y1 y2 y3).
Proof.
  intros Hs (H1 & H2 & H3 & H4 & H5 & H6 & H7 & H8 & H9 & H10 & H11 & H12).
  unfold interp_at.
  rewrite !hat_diff by auto.
  assert (A : forall u v, u - v + e * sc <> 0 -> (u - v) / sc + e <> 0).
  { intros u v H Q. apply H. apply (f_equal (fun t => t * sc)) in Q. field_simplify in Q; auto. lra. }
  rewrite !odiv_some by (repeat apply Rmult_integral_contrapositive_currified; apply A; assumption).
  cbn [option_map olift2]. f_equal. unfold lagr.
  assert (D : forall a b c p q r, p + e * sc <> 0 -> q + e * sc <> 0 -> r + e * sc <> 0 ->
     a / sc * (b / sc) * (c / sc) / ((p / sc + e) * (q / sc + e) * (r / sc + e)) =
     a * b * c / ((p + e * sc) * (q + e * sc) * (r + e * sc))).
  { intros a b c p q r HP HQ HR. field. repeat split; auto; rewrite ?(Rmult_comm sc e); auto. }
  rewrite !D by auto. reflexivity.
Qed.

Lemma ok4_0 nd : distinct4 nd -> ok4 0 nd.
Proof. destruct nd as (((a, b), c), d). intros (H1 & H2 & H3 & H4 & H5 & H6). simpl. repeat split; lra. Qed.

Lemma lagr_cubic sc x x0 x1 x2 x3 a0 a1 a2 a3 : distinct4 (x0, x1, x2, x3) ->
  lagr 0 sc x x0 x1 x2 x3 (cubic a0 a1 a2 a3 x0) (cubic a0 a1 a2 a3 x1) (cubic a0 a1 a2 a3 x2) (cubic a0 a1 a2 a3 x3)
  = cubic a0 a1 a2 a3 x.
Proof.
  intros (H1 & H2 & H3 & H4 & H5 & H6). unfold lagr, cubic. rewrite Rmult_0_l, !Rplus_0_r.
  field. repeat split; lra.
Qed.
Lemma lagr_nodes sc x0 x1 x2 x3 y0 y1 y2 y3 : distinct4 (x0, x1, x2, x3) ->
  lagr 0 sc x0 x0 x1 x2 x3 y0 y1 y2 y3 = y0 /\ lagr 0 sc x1 x0 x1 x2 x3 y0 y1 y2 y3 = y1 /\
  lagr 0 sc x2 x0 x1 x2 x3 y0 y1 y2 y3 = y2 /\ lagr 0 sc x3 x0 x1 x2 x3 y0 y1 y2 y3 = y3.
Proof.
  intros (H1 & H2 & H3 & H4 & H5 & H6). unfold lagr. rewrite Rmult_0_l, !Rplus_0_r.
  repeat split; field; repeat split; lra.
Qed.

Lemma jmin_le l x : In x l -> jmin l <= x.
Proof.
  destruct l as [|a t]; [easy|]. unfold jmin.
  assert (H : forall t a, fold_left Rmin t a <= a /\ forall y, In y t -> fold_left Rmin t a <= y).
  { clear. induction t as [|b t IH]; intros a; simpl. split; [lra|easy].
    destruct (IH (Rmin a b)) as [H1 H2]. pose proof (Rmin_l a b). pose proof (Rmin_r a b).
    split; [lra|]. intros y [<-|Hy]; [lra|auto]. }
  intros [<-|Hx]; [exact (proj1 (H t a))|exact (proj2 (H t a) x Hx)].
Qed.
Lemma jmax_ge l x : In x l -> x <= jmax l.
Proof.
  destruct l as [|a t]; [easy|]. unfold jmax.
  assert (H : forall t a, a <= fold_left Rmax t a /\ forall y, In y t -> y <= fold_left Rmax t a).
  { clear. induction t as [|b t IH]; intros a; simpl. split; [lra|easy].
    destruct (IH (Rmax a b)) as [H1 H2]. pose proof (Rmax_l a b). pose proof (Rmax_r a b).
    split; [lra|]. intros y [<-|Hy]; [lra|auto]. }
  intros [<-|Hx]; [exact (proj1 (H t a))|exact (proj2 (H t a) x Hx)].
Qed.

Lemma in_entries nodes a b c d : In (a, b, c, d) nodes ->
  In a (entries nodes) /\ In b (entries nodes) /\ In c (entries nodes) /\ In d (entries nodes).
Proof.
  intros H. unfold entries.
  assert (K : forall y, In y [a; b; c; d] -> In y (flat_map (fun '(a, b, c, d) => [a; b; c; d]) nodes)).
  { intros y Hy. apply in_flat_map. exists (a, b, c, d). auto. }
  repeat split; apply K; simpl; auto.
Qed.

(** the window scale of a batch *)
Definition scale_of (nodes : list four) (e : R) : R := snd (interp_window nodes e).
Lemma scale_pos nodes e a b c d : In (a, b, c, d) nodes -> distinct4 (a, b, c, d) -> 0 < scale_of nodes e.
Proof.
  intros H (D & _). destruct (in_entries _ _ _ _ _ H) as (A & B & _).
  unfold scale_of, interp_window; simpl.
  pose proof (jmin_le _ _ A). pose proof (jmin_le _ _ B). pose proof (jmax_ge _ _ A). pose proof (jmax_ge _ _ B).
  pose proof (Rmax_l (jmax (entries nodes) - jmin (entries nodes)) e). lra.
Qed.
Lemma scale_pos_eps nodes e : 0 < e -> 0 < scale_of nodes e.
Proof. intros. unfold scale_of, interp_window; simpl. pose proof (Rmax_r (jmax (entries nodes) - jmin (entries nodes)) e). lra. Qed.
(** at least the spread of any two nodes of the batch *)
Lemma scale_ge nodes e u v : In u (entries nodes) -> In v (entries nodes) -> u - v <= scale_of nodes e.
Proof.
  intros A B. unfold scale_of, interp_window; simpl. pose proof (jmax_ge _ _ A). pose proof (jmin_le _ _ B).
  pose proof (Rmax_l (jmax (entries nodes) - jmin (entries nodes)) e). lra.
Qed.

Lemma cubic_interp_nth x nodes y0 y1 y2 y3 e i x0 x1 x2 x3 : scale_of nodes e <> 0 ->
  nth_error nodes i = Some (x0, x1, x2, x3) -> ok4 (e * scale_of nodes e) (x0, x1, x2, x3) ->
  nth_error (cubic_interp x nodes y0 y1 y2 y3 e) i = Some (Some (lagr e (scale_of nodes e) x x0 x1 x2 x3 y0 y1 y2 y3)).
Proof.
  intros Hs Hi Hok. unfold cubic_interp. unfold scale_of in *.
  destruct (interp_window nodes e) as [xm sc]; simpl in *.
  rewrite nth_error_map, Hi. simpl option_map. destruct (Reqb_spec sc 0); [contradiction|].
  f_equal. apply interp_at_val; auto.
Qed.

Lemma interp_cubic : forall nodes i x0 x1 x2 x3 a0 a1 a2 a3 x,
  nth_error nodes i = Some (x0, x1, x2, x3) -> distinct4 (x0, x1, x2, x3) ->
  let p := cubic a0 a1 a2 a3 in
  nth_error (cubic_interp x nodes (p x0) (p x1) (p x2) (p x3) 0) i = Some (Some (p x)).
Proof.
  intros nodes i x0 x1 x2 x3 a0 a1 a2 a3 x Hi Hd p.
  pose proof (scale_pos nodes 0 _ _ _ _ (nth_error_In _ _ Hi) Hd) as Hs.
  erewrite cubic_interp_nth; [|lra|exact Hi|rewrite Rmult_0_l; now apply ok4_0].
  do 2 f_equal. now apply lagr_cubic.
Qed.
Lemma interp_nodes : forall nodes i x0 x1 x2 x3 y0 y1 y2 y3,
  nth_error nodes i = Some (x0, x1, x2, x3) -> distinct4 (x0, x1, x2, x3) ->
  let f x := nth_error (cubic_interp x nodes y0 y1 y2 y3 0) i in
  f x0 = Some (Some y0) /\ f x1 = Some (Some y1) /\ f x2 = Some (Some y2) /\ f x3 = Some (Some y3).
Proof.
  intros nodes i x0 x1 x2 x3 y0 y1 y2 y3 Hi Hd f.
  pose proof (scale_pos nodes 0 _ _ _ _ (nth_error_In _ _ Hi) Hd) as Hs.
  destruct (lagr_nodes (scale_of nodes 0) x0 x1 x2 x3 y0 y1 y2 y3 Hd) as (A & B & D & F).
  unfold f; repeat split; (erewrite cubic_interp_nth; [|lra|exact Hi|rewrite Rmult_0_l; now apply ok4_0]); do 2 f_equal; auto.
Qed.
Lemma interp_crossing : forall (dist : R -> R) a0 a1 a2 a3, (forall t, cubic a0 a1 a2 a3 (dist t) = t) ->
  forall nodes i t, nth_error nodes i = Some (dist 0, dist 1, dist 2, dist 3) ->
  nth_error (cubic_interp (dist t) nodes 0 1 2 3 0) i = Some (Some t).
Proof.
  intros dist a0 a1 a2 a3 Hinv nodes i t Hi.
  assert (D : forall u v, u <> v -> dist u <> dist v) by (intros u v N Q; apply N; rewrite <- (Hinv u), <- (Hinv v), Q; auto).
  assert (Hd : distinct4 (dist 0, dist 1, dist 2, dist 3)) by (repeat split; apply D; lra).
  pose proof (interp_cubic nodes i _ _ _ _ a0 a1 a2 a3 (dist t) Hi Hd) as H. cbv zeta in H.
  rewrite !Hinv in H. exact H.
Qed.

(** effect of the regularisation *)
Lemma fac_close d es h : 0 < es < h -> h <= Rabs d -> d + es <> 0 /\ Rabs (d / (d + es) - 1) <= es / (h - es).
Proof.
  intros [E1 E2] Hd.
  assert (Hn : h - es <= Rabs (d + es)).
  { pose proof (Rabs_triang (d + es) (- es)). replace (d + es + - es) with d in H by lra. rewrite Rabs_Ropp, (Rabs_right es) in H by lra. lra. }
  assert (N : d + es <> 0) by (intros Q; rewrite Q, Rabs_R0 in Hn; lra).
  split; auto. replace (d / (d + es) - 1) with (- (es / (d + es))) by (field; auto).
  rewrite Rabs_Ropp. unfold Rdiv at 1. rewrite Rabs_mult, Rabs_inv, (Rabs_right es) by lra.
  apply Rmult_le_compat_l; [lra|]. apply Rinv_le_contravar; lra.
Qed.
Lemma fac3_close a b c es h : 0 < es < h -> h <= Rabs a -> h <= Rabs b -> h <= Rabs c ->
  Rabs (a * b * c / ((a + es) * (b + es) * (c + es)) - 1) <= (h / (h - es)) ^ 3 - 1.
Proof.
  intros He Ha Hb Hc.
  destruct (fac_close a es h He Ha) as [Na Fa]. destruct (fac_close b es h He Hb) as [Nb Fb].
  destruct (fac_close c es h He Hc) as [Nc Fc].
  set (u := a / (a + es) - 1) in *. set (v := b / (b + es) - 1) in *. set (w := c / (c + es) - 1) in *.
  replace (a * b * c / ((a + es) * (b + es) * (c + es)) - 1) with ((1 + u) * (1 + v) * (1 + w) - 1) by (unfold u, v, w; field; auto).
  set (k := es / (h - es)) in *.
  replace (h / (h - es)) with (1 + k) by (unfold k; field; lra).
  replace ((1 + u) * (1 + v) * (1 + w) - 1) with (u + v + w + (u * v + u * w + v * w) + u * v * w) by ring.
  assert (0 <= Rabs u /\ 0 <= Rabs v /\ 0 <= Rabs w) by (repeat split; apply Rabs_pos).
  assert (P2 : forall s t, 0 <= s <= k -> 0 <= t <= k -> s * t <= k * k) by (intros; apply Rmult_le_compat; lra).
  eapply Rle_trans; [apply Rabs_triang|]. rewrite !Rabs_mult.
  pose proof (Rabs_triang (u + v + w) (u * v + u * w + v * w)).
  pose proof (Rabs_triang (u + v) w). pose proof (Rabs_triang u v).
  pose proof (Rabs_triang (u * v + u * w) (v * w)). pose proof (Rabs_triang (u * v) (u * w)).
  rewrite !Rabs_mult in *.
  pose proof (P2 (Rabs u) (Rabs v)). pose proof (P2 (Rabs u) (Rabs w)). pose proof (P2 (Rabs v) (Rabs w)).
  assert (Rabs u * Rabs v * Rabs w <= k * k * k).
  { apply Rmult_le_compat; try lra. apply Rmult_le_pos; lra. }
  nra.
Qed.

Definition basis (x x0 x1 x2 x3 : R) : R := (x - x1) * (x - x2) * (x - x3) / ((x0 - x1) * (x0 - x2) * (x0 - x3)).
Lemma basis_close es h x x0 x1 x2 x3 : 0 < es < h -> h <= Rabs (x0 - x1) -> h <= Rabs (x0 - x2) -> h <= Rabs (x0 - x3) ->
  Rabs ((x - x1) * (x - x2) * (x - x3) / ((x0 - x1 + es) * (x0 - x2 + es) * (x0 - x3 + es)) - basis x x0 x1 x2 x3)
  <= Rabs (basis x x0 x1 x2 x3) * ((h / (h - es)) ^ 3 - 1).
Proof.
  intros He H1 H2 H3.
  assert (N : forall d, h <= Rabs d -> d <> 0 /\ d + es <> 0).
  { intros d Hd. split; [intros ->; rewrite Rabs_R0 in Hd; lra|now apply (fac_close d es h)]. }
  destruct (N _ H1), (N _ H2), (N _ H3).
  replace ((x - x1) * (x - x2) * (x - x3) / ((x0 - x1 + es) * (x0 - x2 + es) * (x0 - x3 + es)) - basis x x0 x1 x2 x3)
    with (basis x x0 x1 x2 x3 *
      ((x0 - x1) * (x0 - x2) * (x0 - x3) / ((x0 - x1 + es) * (x0 - x2 + es) * (x0 - x3 + es)) - 1))
    by (unfold basis; field; auto 10).
  rewrite Rabs_mult. apply Rmult_le_compat_l; [apply Rabs_pos|]. apply fac3_close; auto.
Qed.
Lemma basis_swap1 x a b c d : basis x a b c d = basis x a c b d.
Proof. unfold basis. f_equal; ring. Qed.

Definition sep4 (h : R) (nd : four) : Prop :=
  let '(a, b, c, d) := nd in h <= Rabs (a - b) /\ h <= Rabs (a - c) /\ h <= Rabs (a - d) /\ h <= Rabs (b - c) /\ h <= Rabs (b - d) /\ h <= Rabs (c - d).
Lemma sep4_ok es h nd : 0 < es < h -> sep4 h nd -> ok4 es nd.
Proof.
  destruct nd as (((a, b), c), d). intros He (H1 & H2 & H3 & H4 & H5 & H6).
  pose proof (fun d Hd => proj1 (fac_close d es h He Hd)) as N.
  simpl. repeat split; apply N; auto; rewrite Rabs_minus_sym; auto.
Qed.
Lemma lagr_close e sc h x x0 x1 x2 x3 y0 y1 y2 y3 : 0 < e * sc < h -> sep4 h (x0, x1, x2, x3) ->
  Rabs (lagr e sc x x0 x1 x2 x3 y0 y1 y2 y3 - lagr 0 sc x x0 x1 x2 x3 y0 y1 y2 y3)
  <= (Rabs (y0 * basis x x0 x1 x2 x3) + Rabs (y1 * basis x x1 x0 x2 x3) + Rabs (y2 * basis x x2 x0 x1 x3)
      + Rabs (y3 * basis x x3 x0 x1 x2)) * ((h / (h - e * sc)) ^ 3 - 1).
Proof.
  intros He (H1 & H2 & H3 & H4 & H5 & H6).
  assert (S' : forall u v, h <= Rabs (u - v) -> h <= Rabs (v - u)) by (intros; rewrite Rabs_minus_sym; auto).
  pose proof (basis_close (e * sc) h x x0 x1 x2 x3 He H1 H2 H3) as B0.
  pose proof (basis_close (e * sc) h x x1 x0 x2 x3 He (S' _ _ H1) H4 H5) as B1.
  pose proof (basis_close (e * sc) h x x2 x0 x1 x3 He (S' _ _ H2) (S' _ _ H4) H6) as B2.
  pose proof (basis_close (e * sc) h x x3 x0 x1 x2 He (S' _ _ H3) (S' _ _ H5) (S' _ _ H6)) as B3.
  unfold lagr. rewrite Rmult_0_l, !Rplus_0_r.
  fold (basis x x0 x1 x2 x3) (basis x x1 x0 x2 x3) (basis x x2 x0 x1 x3) (basis x x3 x0 x1 x2).
  set (K := (h / (h - e * sc)) ^ 3 - 1) in *. rewrite !Rabs_mult.
  match goal with |- Rabs (?y0 * ?p0 + ?y1 * ?p1 + ?y2 * ?p2 + ?y3 * ?p3 - (?y0 * ?q0 + ?y1 * ?q1 + ?y2 * ?q2 + ?y3 * ?q3)) <= _ =>
    replace (y0 * p0 + y1 * p1 + y2 * p2 + y3 * p3 - (y0 * q0 + y1 * q1 + y2 * q2 + y3 * q3))
      with (y0 * (p0 - q0) + y1 * (p1 - q1) + y2 * (p2 - q2) + y3 * (p3 - q3)) by ring;
    eapply Rle_trans; [apply Rabs_triang|]; eapply Rle_trans; [apply Rplus_le_compat_r, Rabs_triang|];
    eapply Rle_trans; [apply Rplus_le_compat_r, Rplus_le_compat_r, Rabs_triang|];
    rewrite !Rabs_mult;
    pose proof (Rmult_le_compat_l (Rabs y0) _ _ (Rabs_pos _) B0);
    pose proof (Rmult_le_compat_l (Rabs y1) _ _ (Rabs_pos _) B1);
    pose proof (Rmult_le_compat_l (Rabs y2) _ _ (Rabs_pos _) B2);
    pose proof (Rmult_le_compat_l (Rabs y3) _ _ (Rabs_pos _) B3) end.
  lra.
Qed.

(** regularised interpolation of a cubic: relative error of each basis value at most (1 - eps*scale/h)^-3 - 1 *)
Lemma interp_regularised : forall nodes i x0 x1 x2 x3 a0 a1 a2 a3 x e h,
  nth_error nodes i = Some (x0, x1, x2, x3) -> sep4 h (x0, x1, x2, x3) -> 0 < e -> e * scale_of nodes e < h ->
  let p := cubic a0 a1 a2 a3 in
  exists v, nth_error (cubic_interp x nodes (p x0) (p x1) (p x2) (p x3) e) i = Some (Some v) /\
  Rabs (v - p x) <= (Rabs (p x0 * basis x x0 x1 x2 x3) + Rabs (p x1 * basis x x1 x0 x2 x3)
     + Rabs (p x2 * basis x x2 x0 x1 x3) + Rabs (p x3 * basis x x3 x0 x1 x2))
     * ((h / (h - e * scale_of nodes e)) ^ 3 - 1).
Proof.
  intros nodes i x0 x1 x2 x3 a0 a1 a2 a3 x e h Hi Hsep He Hh p.
  pose proof (scale_pos_eps nodes e He) as Hs.
  assert (E2 : 0 < e * scale_of nodes e < h) by (split; auto; now apply Rmult_lt_0_compat).
  eexists. split.
  - apply cubic_interp_nth; [lra|exact Hi|]. eapply sep4_ok; eauto.
  - unfold p. rewrite <- (lagr_cubic (scale_of nodes e) x x0 x1 x2 x3 a0 a1 a2 a3).
    + apply lagr_close; auto.
    + destruct Hsep as (H1 & H2 & H3 & H4 & H5 & H6).
      repeat split; intros ->; rewrite Rminus_eq_0, Rabs_R0 in *; lra.
Qed.

(** ** angular sums *)
Lemma clip01_bounds x : 0 <= clip01 x <= 1.
Proof.
  unfold clip01. pose proof (Rmin_r (Rmax x 0) 1). split; [|auto]. apply Rmin_glb; [apply Rmax_r|lra].
Qed.
Lemma clip01_id x : 0 <= x <= 1 -> clip01 x = x.
Proof. intros. unfold clip01. rewrite Rmax_left by lra. apply Rmin_left; lra. Qed.

Lemma osum_some l v : osum l = Some v -> exists xs, l = map Some xs /\ v = sumR xs.
Proof.
  revert v; induction l as [|[x|] t IH]; simpl; intros v H; try discriminate.
  - injection H as <-. exists []. auto.
  - destruct (osum t) as [w|]; simpl in H; [|discriminate]. injection H as <-.
    destruct (IH w eq_refl) as (xs & -> & ->). exists (x :: xs). auto.
Qed.
Lemma osum_map_some xs : osum (map Some xs) = Some (sumR xs).
Proof. induction xs; simpl; auto. rewrite IHxs. reflexivity. Qed.
Lemma osum_defined (l : list (option R)) : (forall x, In x l -> x <> None) -> exists v, osum l = Some v.
Proof.
  induction l as [|[x|] t IH]; simpl; intros H. eauto.
  - destruct IH as [v ->]; auto. simpl; eauto.
  - exfalso. exact (H None (or_introl eq_refl) eq_refl).
Qed.
Lemma osum_none (l : list (option R)) : In None l -> osum l = None.
Proof.
  induction l as [|x t IH]; simpl; [easy|]. intros [->|H]; simpl; auto. rewrite IH by auto. destruct x; auto.
Qed.

Lemma sumR_scale k l : sumR (map (fun x => k * x) l) = k * sumR l.
Proof. induction l; simpl; [lra|]. rewrite IHl; lra. Qed.
Lemma sumR_bounds l lo hi : (forall x, In x l -> lo <= x <= hi) -> INR (length l) * lo <= sumR l <= INR (length l) * hi.
Proof.
  induction l as [|a t IH]; intros H. simpl; lra.
  assert (lo <= a <= hi) by (apply H; simpl; auto).
  assert (INR (length t) * lo <= sumR t <= INR (length t) * hi) by (apply IH; intros; apply H; simpl; auto).
  simpl length. simpl sumR. rewrite S_INR. lra.
Qed.

Definition cell_weight (rho d1 d2 te : R) : R := uniform_cell rho 1 1 d1 d2 te.
Lemma uniform_cell_scale rho r0 dth d1 d2 te : uniform_cell rho r0 dth d1 d2 te = r0 * dth * cell_weight rho d1 d2 te.
Proof. unfold cell_weight, uniform_cell. ring. Qed.
Lemma in_source_in d rho : d < rho -> in_source d rho = 1.
Proof. intros. unfold in_source. destruct (Rltb_spec (d - rho) 0); lra. Qed.
Lemma in_source_out d rho : rho <= d -> in_source d rho = 0.
Proof. intros. unfold in_source. destruct (Rltb_spec (d - rho) 0); lra. Qed.
Lemma cell_weight_cases rho d1 d2 te :
  0 <= cell_weight rho d1 d2 te <= 1 /\
  (d1 < rho -> d2 < rho -> cell_weight rho d1 d2 te = 1) /\
  (rho <= d1 -> rho <= d2 -> cell_weight rho d1 d2 te = 0) /\
  (d1 < rho -> rho <= d2 -> cell_weight rho d1 d2 te = clip01 (te - 1)) /\
  (rho <= d1 -> d2 < rho -> cell_weight rho d1 d2 te = clip01 (2 - te)).
Proof.
  pose proof (clip01_bounds (te - 1)). pose proof (clip01_bounds (2 - te)).
  assert (A : (d1 < rho -> d2 < rho -> cell_weight rho d1 d2 te = 1) /\
  (rho <= d1 -> rho <= d2 -> cell_weight rho d1 d2 te = 0) /\
  (d1 < rho -> rho <= d2 -> cell_weight rho d1 d2 te = clip01 (te - 1)) /\
  (rho <= d1 -> d2 < rho -> cell_weight rho d1 d2 te = clip01 (2 - te))).
  { unfold cell_weight, uniform_cell. repeat split; intros A B; rewrite ?(in_source_in d1), ?(in_source_in d2), ?(in_source_out d1), ?(in_source_out d2) by auto; ring. }
  split; auto. destruct A as (A1 & A2 & A3 & A4).
  destruct (Rlt_dec d1 rho), (Rlt_dec d2 rho); [rewrite A1|rewrite A3|rewrite A4|rewrite A2]; lra.
Qed.

Lemma windows_length n d : length (windows n d) = n.
Proof. unfold windows. now rewrite map_length, seq_length. Qed.
Lemma windows_nth n d i : (i < n)%nat ->
  nth_error (windows n d) i = Some (nth i d 0, nth (i + 1) d 0, nth (i + 2) d 0, nth (i + 3) d 0).
Proof.
  intros H. unfold windows. rewrite nth_error_map.
  rewrite (nth_error_nth' _ 0%nat) by (rewrite seq_length; auto). rewrite seq_nth by auto. reflexivity.
Qed.
Lemma cubic_interp_length x nodes y0 y1 y2 y3 e : length (cubic_interp x nodes y0 y1 y2 y3 e) = length nodes.
Proof. unfold cubic_interp. destruct (interp_window nodes e). apply map_length. Qed.
Lemma combine_nth_error {A B} (l : list A) (m : list B) i a b : nth_error l i = Some a -> nth_error m i = Some b ->
  nth_error (combine l m) i = Some (a, b).
Proof.
  revert m i; induction l as [|x l IH]; intros [|y m] [|i]; simpl; intros H1 H2; try discriminate; auto.
  congruence.
Qed.

Definition uniform_terms rho r0 dth (d : list R) : list (option R) :=
  let w := windows (length d - 3) d in
  map (fun p => let '((_, d1, d2, _), te) := p in option_map (uniform_cell rho r0 dth d1 d2) te)
                (combine w (cubic_interp rho w 0 1 2 3 zero_term)).
Lemma uniform_terms_length rho r0 dth d : length (uniform_terms rho r0 dth d) = (length d - 3)%nat.
Proof. unfold uniform_terms. rewrite map_length, combine_length, cubic_interp_length, windows_length. lia. Qed.
Lemma process_r_uniform_eq rho r0 dth d : (4 <= length d)%nat ->
  process_r_uniform rho r0 dth d = Ok (osum (uniform_terms rho r0 dth d)).
Proof. intros. unfold process_r_uniform. destruct (Nat.ltb_spec (length d) 4); [lia|reflexivity]. Qed.
Lemma uniform_term_nth rho r0 dth d i : (i < length d - 3)%nat ->
  exists te, nth_error (cubic_interp rho (windows (length d - 3) d) 0 1 2 3 zero_term) i = Some te /\
    nth_error (uniform_terms rho r0 dth d) i = Some (option_map (uniform_cell rho r0 dth (nth (i + 1) d 0) (nth (i + 2) d 0)) te).
Proof.
  intros Hi. destruct (nth_error (cubic_interp rho (windows (length d - 3) d) 0 1 2 3 zero_term) i) as [te|] eqn:Q.
  - exists te. split; auto. unfold uniform_terms. rewrite nth_error_map.
    rewrite (combine_nth_error _ _ i _ _ (windows_nth _ _ _ Hi) Q). reflexivity.
  - exfalso. apply nth_error_None in Q. rewrite cubic_interp_length, windows_length in Q. lia.
Qed.

Lemma uniform_weights : forall rho r0 dth d v, process_r_uniform rho r0 dth d = Ok (Some v) ->
  exists ws, length ws = (length d - 3)%nat /\ v = r0 * dth * sumR ws /\
  forall i, (i < length d - 3)%nat ->
    0 <= nth i ws 0 <= 1 /\
    (nth (i + 1) d 0 < rho -> nth (i + 2) d 0 < rho -> nth i ws 0 = 1) /\
    (rho <= nth (i + 1) d 0 -> rho <= nth (i + 2) d 0 -> nth i ws 0 = 0).
Proof.
  intros rho r0 dth d v H.
  assert (L : (4 <= length d)%nat).
  { unfold process_r_uniform in H. destruct (Nat.ltb_spec (length d) 4); [discriminate|lia]. }
  rewrite process_r_uniform_eq in H by auto. injection H as H.
  destruct (osum_some _ _ H) as (xs & Q & ->).
  assert (K : forall i, (i < length d - 3)%nat -> exists te, nth i xs 0 = r0 * dth * cell_weight rho (nth (i + 1) d 0) (nth (i + 2) d 0) te /\
     nth_error (cubic_interp rho (windows (length d - 3) d) 0 1 2 3 zero_term) i = Some (Some te)).
  { intros i Hi. destruct (uniform_term_nth rho r0 dth d i Hi) as (te & T1 & T2). rewrite Q, nth_error_map in T2.
    destruct (nth_error xs i) as [x|] eqn:X; [|discriminate]. simpl in T2. injection T2 as T2.
    destruct te as [te|]; [|discriminate]. simpl in T2. injection T2 as T2. exists te. split; auto.
    rewrite (nth_error_nth _ _ _ X), T2. apply uniform_cell_scale. }
  set (ws := map (fun i => match nth_error (cubic_interp rho (windows (length d - 3) d) 0 1 2 3 zero_term) i with
               | Some (Some te) => cell_weight rho (nth (i + 1) d 0) (nth (i + 2) d 0) te | _ => 0 end) (seq 0 (length d - 3))).
  assert (Lx : length xs = (length d - 3)%nat).
  { rewrite <- (uniform_terms_length rho r0 dth d), Q, map_length. auto. }
  exists ws. split; [unfold ws; now rewrite map_length, seq_length|]. split.
  - replace xs with (map (fun x => r0 * dth * x) ws). apply sumR_scale.
    apply nth_ext with (d := 0) (d' := 0); [unfold ws; now rewrite !map_length, seq_length|].
    intros i Hi. assert (Hi' : (i < length d - 3)%nat) by (unfold ws in Hi; rewrite !map_length, seq_length in Hi; auto).
    destruct (K i Hi') as (te & -> & K2).
    rewrite (nth_map_lt _ _ _ 0) by (unfold ws; now rewrite map_length, seq_length).
    unfold ws. rewrite (nth_map_lt _ _ _ 0%nat) by (now rewrite seq_length). rewrite seq_nth by auto. simpl plus. rewrite K2. reflexivity.
  - intros i Hi. destruct (K i Hi) as (te & _ & K2).
    assert (E : nth i ws 0 = cell_weight rho (nth (i + 1) d 0) (nth (i + 2) d 0) te).
    { unfold ws. rewrite (nth_map_lt _ _ _ 0%nat) by (now rewrite seq_length). rewrite seq_nth by auto. simpl plus. rewrite K2. reflexivity. }
    rewrite E. destruct (cell_weight_cases rho (nth (i + 1) d 0) (nth (i + 2) d 0) te) as (A & B & D & _). auto.
Qed.

Lemma uniform_bounds : forall rho r0 dth d v, 0 <= r0 -> 0 <= dth -> process_r_uniform rho r0 dth d = Ok (Some v) ->
  0 <= v <= r0 * (dth * INR (length d - 1)).
Proof.
  intros rho r0 dth d v Hr Ht H. destruct (uniform_weights _ _ _ _ _ H) as (ws & L & -> & W).
  assert (B : INR (length ws) * 0 <= sumR ws <= INR (length ws) * 1).
  { apply sumR_bounds. intros x Hx. apply (In_nth _ _ 0) in Hx. destruct Hx as (i & Hi & <-). apply W. lia. }
  assert (INR (length ws) <= INR (length d - 1)) by (apply le_INR; lia).
  assert (0 <= r0 * dth) by (apply Rmult_le_pos; auto).
  split; [apply Rmult_le_pos; lra|]. rewrite <- Rmult_assoc. apply Rmult_le_compat_l; lra.
Qed.
Lemma uniform_outside : forall rho r0 dth d v, (forall x, In x d -> rho <= x) -> process_r_uniform rho r0 dth d = Ok (Some v) -> v = 0.
Proof.
  intros rho r0 dth d v Hd H. destruct (uniform_weights _ _ _ _ _ H) as (ws & L & -> & W).
  assert (B : INR (length ws) * 0 <= sumR ws <= INR (length ws) * 0).
  { apply sumR_bounds. intros x Hx. apply (In_nth _ _ 0) in Hx. destruct Hx as (i & Hi & <-).
    destruct (W i) as (_ & _ & W2); [lia|]. rewrite W2; [lra| |]; apply Hd, nth_In; lia. }
  replace (sumR ws) with 0 by lra. ring.
Qed.
Lemma uniform_inside : forall rho r0 dth d v, (forall x, In x d -> x < rho) -> process_r_uniform rho r0 dth d = Ok (Some v) ->
  v = r0 * dth * INR (length d - 3).
Proof.
  intros rho r0 dth d v Hd H. destruct (uniform_weights _ _ _ _ _ H) as (ws & L & -> & W).
  assert (B : INR (length ws) * 1 <= sumR ws <= INR (length ws) * 1).
  { apply sumR_bounds. intros x Hx. apply (In_nth _ _ 0) in Hx. destruct Hx as (i & Hi & <-).
    destruct (W i) as (_ & W1 & _); [lia|]. rewrite W1; [lra| |]; apply Hd, nth_In; lia. }
  replace (sumR ws) with (INR (length ws)) by lra. rewrite L. ring.
Qed.

(** the sum is a number unless two distances within a stencil differ by exactly 1e-10 times the spread *)
Definition generic (d : list R) : Prop := forall i j k, (i < length d - 3)%nat -> (j < 4)%nat -> (k < 4)%nat -> j <> k ->
  nth (i + j) d 0 - nth (i + k) d 0 <> - (zero_term * scale_of (windows (length d - 3) d) zero_term).
Lemma zero_term_pos : 0 < zero_term.
Proof. unfold zero_term. lra. Qed.
Lemma generic_ok d i : generic d -> (i < length d - 3)%nat ->
  ok4 (zero_term * scale_of (windows (length d - 3) d) zero_term) (nth i d 0, nth (i + 1) d 0, nth (i + 2) d 0, nth (i + 3) d 0).
Proof.
  intros G Hi. set (e := zero_term * _) in *.
  assert (K : forall j k, (j < 4)%nat -> (k < 4)%nat -> j <> k -> nth (i + j) d 0 - nth (i + k) d 0 + e <> 0).
  { intros j k Hj Hk N Q. apply (G i j k Hi Hj Hk N). fold e. lra. }
  rewrite <- (Nat.add_0_r i) at 1 . cbn [ok4].
  repeat split; (apply (K 0 1)%nat || apply (K 0 2)%nat || apply (K 0 3)%nat || apply (K 1 0)%nat || apply (K 1 2)%nat || apply (K 1 3)%nat
     || apply (K 2 0)%nat || apply (K 2 1)%nat || apply (K 2 3)%nat || apply (K 3 0)%nat || apply (K 3 1)%nat || apply (K 3 2)%nat); lia.
Qed.
Lemma uniform_defined : forall rho r0 dth d, (4 <= length d)%nat -> generic d -> exists v, process_r_uniform rho r0 dth d = Ok (Some v).
Proof.
  intros rho r0 dth d L G. rewrite process_r_uniform_eq by auto.
  assert (O : exists v, osum (uniform_terms rho r0 dth d) = Some v).
  { apply osum_defined. intros x Hx. apply In_nth_error in Hx. destruct Hx as (i & Hi).
    assert (Hi' : (i < length d - 3)%nat).
    { rewrite <- (uniform_terms_length rho r0 dth d). apply nth_error_Some. congruence. }
    destruct (uniform_term_nth rho r0 dth d i Hi') as (te & T1 & T2). rewrite T2 in Hi. injection Hi as <-.
    erewrite cubic_interp_nth in T1; [|pose proof (scale_pos_eps (windows (length d - 3) d) zero_term zero_term_pos); lra|
      now apply windows_nth|now apply generic_ok].
    injection T1 as <-. simpl. discriminate. }
  destruct O as [v ->]. eauto.
Qed.
Lemma uniform_short : forall rho r0 dth d, (length d < 4)%nat -> process_r_uniform rho r0 dth d = Raise ValueError.
Proof. intros. unfold process_r_uniform. destruct (Nat.ltb_spec (length d) 4); [auto|lia]. Qed.

Lemma clip01_lip x y : Rabs (clip01 x - clip01 y) <= Rabs (x - y).
Proof.
  unfold clip01, Rmin, Rmax. repeat destruct (Rle_dec _ _); unfold Rabs; repeat destruct (Rcase_abs _); lra.
Qed.

(** the weight of a crossing cell when the distance profile has a cubic inverse *)
Lemma crossing_cell_close : forall (dist : R -> R) a0 a1 a2 a3 d i t h rho r0 dth v,
  (forall s, cubic a0 a1 a2 a3 (dist s) = s) -> (i < length d - 3)%nat ->
  (nth i d 0, nth (i + 1) d 0, nth (i + 2) d 0, nth (i + 3) d 0) = (dist 0, dist 1, dist 2, dist 3) ->
  sep4 h (dist 0, dist 1, dist 2, dist 3) -> zero_term * scale_of (windows (length d - 3) d) zero_term < h ->
  1 <= t <= 2 -> dist t = rho ->
  nth_error (uniform_terms rho r0 dth d) i = Some (Some v) ->
  let err := (Rabs (1 * basis rho (dist 1) (dist 0) (dist 2) (dist 3)) + Rabs (2 * basis rho (dist 2) (dist 0) (dist 1) (dist 3))
     + Rabs (3 * basis rho (dist 3) (dist 0) (dist 1) (dist 2)))
     * ((h / (h - zero_term * scale_of (windows (length d - 3) d) zero_term)) ^ 3 - 1) in
  (dist 1 < rho -> rho <= dist 2 -> exists w, v = r0 * dth * w /\ Rabs (w - (t - 1)) <= err) /\
  (rho <= dist 1 -> dist 2 < rho -> exists w, v = r0 * dth * w /\ Rabs (w - (2 - t)) <= err).
Proof.
  intros dist a0 a1 a2 a3 d i t h rho r0 dth v Hinv Hi Hnd Hsep Hh Ht Hrho Hv err.
  pose proof (windows_nth _ d i Hi) as Hw. rewrite Hnd in Hw.
  destruct (interp_regularised (windows (length d - 3) d) i _ _ _ _ a0 a1 a2 a3 rho zero_term h Hw Hsep zero_term_pos Hh) as (te & T1 & T2).
  cbv zeta in T1, T2. rewrite !Hinv in T1, T2. rewrite <- Hrho, Hinv, Hrho in T2.
  rewrite Rmult_0_l, Rabs_R0, Rplus_0_l in T2. fold err in T2.
  destruct (uniform_term_nth rho r0 dth d i Hi) as (te' & U1 & U2).
  rewrite T1 in U1. injection U1 as <-. rewrite Hv in U2. simpl in U2. injection U2 as ->.
  injection Hnd as N0 N1 N2 N3. rewrite N1, N2, uniform_cell_scale.
  destruct (cell_weight_cases rho (dist 1) (dist 2) te) as (_ & _ & _ & A & B).
  split; intros P Q; eexists; (split; [reflexivity|]).
  - rewrite A by auto. rewrite <- (clip01_id (t - 1)) by lra. eapply Rle_trans; [apply clip01_lip|].
    replace (te - 1 - (t - 1)) with (te - t) by lra. exact T2.
  - rewrite B by auto. rewrite <- (clip01_id (2 - t)) by lra. eapply Rle_trans; [apply clip01_lip|].
    replace (2 - te - (2 - t)) with (- (te - t)) by lra. rewrite Rabs_Ropp. exact T2.
Qed.

(** a profile entirely outside whose angular sum is not a number *)
Lemma uniform_undefined : forall r0 dth, process_r_uniform (1 / 2) r0 dth [1; 1 + 1e-10; 2; 2] = Ok None.
Proof.
  intros. rewrite process_r_uniform_eq by (simpl; lia). f_equal. apply osum_none.
  unfold uniform_terms. cbn [length Nat.sub windows map seq nth Nat.add combine].
  unfold cubic_interp, interp_window. cbn [entries flat_map app map combine].
  replace (jmin _) with 1.
  2:{ unfold jmin, Rmin; simpl. repeat destruct (Rle_dec _ _); lra. }
  replace (jmax _) with 2.
  2:{ unfold jmax, Rmax; simpl. repeat destruct (Rle_dec _ _); lra. }
  replace (Rmax (2 - 1) zero_term) with 1 by (unfold zero_term; rewrite Rmax_left; lra).
  destruct (Reqb_spec 1 0); [lra|]. left. unfold interp_at, odiv at 1, zero_term.
  match goal with |- context [Reqb ?a 0] => replace a with 0 by field; rewrite Reqb_refl end.
  reflexivity.
Qed.

(** ** limb-darkened angular sum *)
Lemma facB_pos x c : 0 < x -> 0 < calc_facB x c.
Proof.
  intros H. unfold calc_facB. destruct (Rltb_spec c x); [|lra].
  assert (0 < 0.5 / x) by (apply Rdiv_lt_0_compat; lra).
  apply Rmult_lt_0_compat; [|lra]. apply Rmult_lt_0_compat; [lra|]. apply sqrt_lt_R0. lra.
Qed.
Lemma facB_max x c : 1e-10 <= x <= 1.1 -> calc_facB x c <= 1e5.
Proof.
  intros H. unfold calc_facB. destruct (Rltb_spec c x); [|lra].
  assert (A : 0.5 / x <= 5e9) by (apply (Rmult_le_reg_r x); [lra|]; unfold Rdiv; rewrite Rmult_assoc, Rinv_l by lra; lra).
  assert (B : sqrt (1 + 0.5 / x) <= 8e4) by (rewrite <- (sqrt_pow2 8e4) by lra; apply sqrt_le_1_alt; lra). pose proof (sqrt_pos (1 + 0.5 / x)). nra.
Qed.
Definition limb_weight (rho delta_c d1 d2 d3 te1 te2 : R) : R := limb_cell rho 1 1 delta_c d1 d2 d3 1 te1 te2.
Lemma limb_cell_scale rho r0 dth dc d1 d2 d3 I te1 te2 :
  limb_cell rho r0 dth dc d1 d2 d3 I te1 te2 = r0 * dth * I * limb_weight rho dc d1 d2 d3 te1 te2.
Proof. unfold limb_weight, limb_cell. ring. Qed.
Lemma limb_weight_cases rho dc d1 d2 d3 te1 te2 :
  0 <= limb_weight rho dc d1 d2 d3 te1 te2 <= 1e5 /\
  (d1 < rho -> d2 < rho -> d3 < rho -> limb_weight rho dc d1 d2 d3 te1 te2 = 1) /\
  (rho <= d2 -> limb_weight rho dc d1 d2 d3 te1 te2 = 0) /\
  (rho <= d1 -> d2 < rho -> d3 < rho -> limb_weight rho dc d1 d2 d3 te1 te2 = calc_facB (clip01 (2 - te1) + zero_term) dc) /\
  (d1 < rho -> d2 < rho -> rho <= d3 -> limb_weight rho dc d1 d2 d3 te1 te2 = calc_facB (clip01 (te2 - 1) + zero_term) dc) /\
  (rho <= d1 -> rho <= d3 -> limb_weight rho dc d1 d2 d3 te1 te2 = 0).
Proof.
  pose proof (clip01_bounds (te2 - 1)). pose proof (clip01_bounds (2 - te1)). pose proof zero_term_pos.
  pose proof (facB_pos (clip01 (2 - te1) + zero_term) dc ltac:(lra)).
  pose proof (facB_pos (clip01 (te2 - 1) + zero_term) dc ltac:(lra)).
  pose proof (facB_max (clip01 (2 - te1) + zero_term) dc ltac:(unfold zero_term in *; lra)).
  pose proof (facB_max (clip01 (te2 - 1) + zero_term) dc ltac:(unfold zero_term in *; lra)).
  assert (A : (d1 < rho -> d2 < rho -> d3 < rho -> limb_weight rho dc d1 d2 d3 te1 te2 = 1) /\
  (rho <= d2 -> limb_weight rho dc d1 d2 d3 te1 te2 = 0) /\
  (rho <= d1 -> d2 < rho -> d3 < rho -> limb_weight rho dc d1 d2 d3 te1 te2 = calc_facB (clip01 (2 - te1) + zero_term) dc) /\
  (d1 < rho -> d2 < rho -> rho <= d3 -> limb_weight rho dc d1 d2 d3 te1 te2 = calc_facB (clip01 (te2 - 1) + zero_term) dc) /\
  (rho <= d1 -> rho <= d3 -> limb_weight rho dc d1 d2 d3 te1 te2 = 0)).
  { unfold limb_weight, limb_cell. repeat split; intros; rewrite ?(in_source_in d1), ?(in_source_in d2), ?(in_source_in d3), ?(in_source_out d1), ?(in_source_out d2), ?(in_source_out d3) by auto; ring. }
  split; auto. destruct A as (A1 & A2 & A3 & A4 & A5).
  destruct (Rlt_dec d2 rho); [|rewrite A2; lra].
  destruct (Rlt_dec d1 rho), (Rlt_dec d3 rho); [rewrite A1|rewrite A4|rewrite A3|rewrite A5]; lra.
Qed.

Definition limb_terms rho u1 dc r0 dth (d : list R) : list (option R) :=
  let n := (length d - 4)%nat in
  map (fun p => let '(i, (te1, te2)) := p in
        match te1, te2, Is_limb_1st (nth (i + 2) d 0 / rho) u1 with
        | Some t1, Some t2, Some Is2 =>
          Some (limb_cell rho r0 dth dc (nth (i + 1) d 0) (nth (i + 2) d 0) (nth (i + 3) d 0) Is2 t1 t2)
        | _, _, _ => None end)
      (combine (seq 0 n) (combine (cubic_interp rho (windows n d) 0 1 2 3 zero_term) (cubic_interp rho (windows n (tl d)) 0 1 2 3 zero_term))).
Lemma process_r_limb_eq rho u1 dc r0 dth d : (5 <= length d)%nat ->
  process_r_limb rho u1 dc r0 dth d = Ok (osum (limb_terms rho u1 dc r0 dth d)).
Proof. intros. unfold process_r_limb. destruct (Nat.ltb_spec (length d) 5); [lia|reflexivity]. Qed.
Lemma limb_terms_length rho u1 dc r0 dth d : length (limb_terms rho u1 dc r0 dth d) = (length d - 4)%nat.
Proof. unfold limb_terms. rewrite map_length, !combine_length, !cubic_interp_length, !windows_length, seq_length. lia. Qed.
Lemma limb_term_nth rho u1 dc r0 dth d i x : nth_error (limb_terms rho u1 dc r0 dth d) i = Some (Some x) ->
  (i < length d - 4)%nat /\ exists t1 t2 I2, Is_limb_1st (nth (i + 2) d 0 / rho) u1 = Some I2 /\
    nth_error (cubic_interp rho (windows (length d - 4) d) 0 1 2 3 zero_term) i = Some (Some t1) /\
    nth_error (cubic_interp rho (windows (length d - 4) (tl d)) 0 1 2 3 zero_term) i = Some (Some t2) /\
    x = r0 * dth * I2 * limb_weight rho dc (nth (i + 1) d 0) (nth (i + 2) d 0) (nth (i + 3) d 0) t1 t2.
Proof.
  intros H.
  assert (Hi : (i < length d - 4)%nat) by (rewrite <- (limb_terms_length rho u1 dc r0 dth d); apply nth_error_Some; congruence).
  split; auto. unfold limb_terms in H. rewrite nth_error_map in H.
  destruct (nth_error (cubic_interp rho (windows (length d - 4) d) 0 1 2 3 zero_term) i) as [t1|] eqn:Q1.
  2:{ apply nth_error_None in Q1. rewrite cubic_interp_length, windows_length in Q1. lia. }
  destruct (nth_error (cubic_interp rho (windows (length d - 4) (tl d)) 0 1 2 3 zero_term) i) as [t2|] eqn:Q2.
  2:{ apply nth_error_None in Q2. rewrite cubic_interp_length, windows_length in Q2. lia. }
  assert (Qs : nth_error (seq 0 (length d - 4)) i = Some i).
  { rewrite (nth_error_nth' _ 0%nat) by (rewrite seq_length; auto). rewrite seq_nth by auto. reflexivity. }
  rewrite (combine_nth_error _ _ i _ _ Qs (combine_nth_error _ _ i _ _ Q1 Q2)) in H. simpl in H.
  destruct t1 as [t1|]; [|discriminate]. destruct t2 as [t2|]; [|discriminate].
  destruct (Is_limb_1st (nth (i + 2) d 0 / rho) u1) as [I2|]; [|discriminate]. injection H as <-.
  exists t1, t2, I2. repeat split; auto. apply limb_cell_scale.
Qed.

(** weights of the limb-darkened sum *)
Lemma limb_weights : forall rho u1 dc r0 dth d v, process_r_limb rho u1 dc r0 dth d = Ok (Some v) ->
  exists ws, length ws = (length d - 4)%nat /\ v = r0 * dth * sumR ws /\
  forall i, (i < length d - 4)%nat -> exists I2 k, Is_limb_1st (nth (i + 2) d 0 / rho) u1 = Some I2 /\ nth i ws 0 = I2 * k /\ 0 <= k <= 1e5 /\
    (nth (i + 1) d 0 < rho -> nth (i + 2) d 0 < rho -> nth (i + 3) d 0 < rho -> k = 1) /\
    (rho <= nth (i + 2) d 0 -> k = 0).
Proof.
  intros rho u1 dc r0 dth d v H.
  assert (L : (5 <= length d)%nat).
  { unfold process_r_limb in H. destruct (Nat.ltb_spec (length d) 5); [discriminate|lia]. }
  rewrite process_r_limb_eq in H by auto. injection H as H.
  destruct (osum_some _ _ H) as (xs & Q & ->).
  assert (Lx : length xs = (length d - 4)%nat) by (rewrite <- (limb_terms_length rho u1 dc r0 dth d), Q, map_length; auto).
  assert (K : forall i, (i < length d - 4)%nat -> exists w, nth i xs 0 = r0 * dth * w /\ exists I2 k,
     Is_limb_1st (nth (i + 2) d 0 / rho) u1 = Some I2 /\ w = I2 * k /\ 0 <= k <= 1e5 /\
    (nth (i + 1) d 0 < rho -> nth (i + 2) d 0 < rho -> nth (i + 3) d 0 < rho -> k = 1) /\
    (rho <= nth (i + 2) d 0 -> k = 0)).
  { intros i Hi. assert (X : nth_error (limb_terms rho u1 dc r0 dth d) i = Some (Some (nth i xs 0))).
    { rewrite Q, nth_error_map, (nth_error_nth' _ 0) by lia. reflexivity. }
    destruct (limb_term_nth _ _ _ _ _ _ _ _ X) as (_ & t1 & t2 & I2 & A & _ & _ & ->).
    eexists. split; [rewrite Rmult_assoc; reflexivity|]. exists I2. eexists. split; [exact A|]. split; [reflexivity|].
    destruct (limb_weight_cases rho dc (nth (i + 1) d 0) (nth (i + 2) d 0) (nth (i + 3) d 0) t1 t2) as (B1 & B2 & B3 & _).
    auto. }
  clear Q. revert K. generalize (length d - 4)%nat Lx. clear - xs.
  intros n Hn K.
  assert (F : exists ws, length ws = n /\ forall i, (i < n)%nat -> nth i xs 0 = r0 * dth * nth i ws 0 /\ exists I2 k,
     Is_limb_1st (nth (i + 2) d 0 / rho) u1 = Some I2 /\ nth i ws 0 = I2 * k /\ 0 <= k <= 1e5 /\
    (nth (i + 1) d 0 < rho -> nth (i + 2) d 0 < rho -> nth (i + 3) d 0 < rho -> k = 1) /\
    (rho <= nth (i + 2) d 0 -> k = 0)).
  { clear Hn. induction n as [|n IH]. exists []. split; auto. intros; lia.
    destruct IH as (ws & L & W); [intros; apply K; lia|]. destruct (K n) as (w & W1 & W2); [lia|].
    exists (ws ++ [w]). split; [rewrite app_length; simpl; lia|]. intros i Hi.
    destruct (Nat.eq_dec i n) as [->|Ni].
    - rewrite app_nth2, L, Nat.sub_diag by lia. simpl. auto.
    - rewrite app_nth1 by lia. apply W. lia. }
  destruct F as (ws & L & W). exists ws. split; auto. split.
  - replace xs with (map (fun x => r0 * dth * x) ws). apply sumR_scale.
    apply nth_ext with (d := 0) (d' := 0); [rewrite map_length; lia|]. intros i Hi. rewrite map_length in Hi.
    rewrite (nth_map_lt _ _ _ 0) by auto. symmetry. apply W. lia.
  - intros i Hi. apply W. auto.
Qed.

Lemma limb_nonneg : forall rho u1 dc r0 dth d v, 0 < rho -> 0 <= u1 <= 1 -> 0 <= r0 -> 0 <= dth -> (forall x, In x d -> 0 <= x) ->
  process_r_limb rho u1 dc r0 dth d = Ok (Some v) -> 0 <= v.
Proof.
  intros rho u1 dc r0 dth d v Hr Hu Hr0 Ht Hd H. destruct (limb_weights _ _ _ _ _ _ _ H) as (ws & L & -> & W).
  apply Rmult_le_pos; [apply Rmult_le_pos; auto|].
  assert (B : forall x, In x ws -> 0 <= x).
  { intros x Hx. apply (In_nth _ _ 0) in Hx. destruct Hx as (i & Hi & <-).
    destruct (W i) as (I2 & k & A & -> & Hk & _); [lia|].
    assert (0 <= nth (i + 2) d 0 / rho).
    { apply Rmult_le_pos; [apply Hd, nth_In; lia|]. apply Rlt_le, Rinv_0_lt_compat; auto. }
    destruct (limb_shape u1 _ _ _ _ Hu (conj H0 (Rle_refl _)) A A) as [B _]. apply Rmult_le_pos; [auto|lra]. }
  clear - B. induction ws; simpl; [lra|]. assert (0 <= a) by (apply B; simpl; auto). assert (0 <= sumR ws) by (apply IHws; intros; apply B; simpl; auto). lra.
Qed.
Lemma limb_outside : forall rho u1 dc r0 dth d v, (forall x, In x d -> rho <= x) -> process_r_limb rho u1 dc r0 dth d = Ok (Some v) -> v = 0.
Proof.
  intros rho u1 dc r0 dth d v Hd H. destruct (limb_weights _ _ _ _ _ _ _ H) as (ws & L & -> & W).
  assert (B : INR (length ws) * 0 <= sumR ws <= INR (length ws) * 0).
  { apply sumR_bounds. intros x Hx. apply (In_nth _ _ 0) in Hx. destruct Hx as (i & Hi & <-).
    destruct (W i) as (I2 & k & A & -> & _ & _ & K); [lia|]. rewrite K; [lra|]. apply Hd, nth_In; lia. }
  replace (sumR ws) with 0 by lra. ring.
Qed.
Lemma limb_inside : forall rho u1 dc r0 dth d v f, (forall x, In x d -> x < rho) ->
  (forall x, In x d -> Is_limb_1st (x / rho) u1 = Some (f x)) ->
  process_r_limb rho u1 dc r0 dth d = Ok (Some v) -> v = r0 * dth * sumR (map f (firstn (length d - 4) (skipn 2 d))).
Proof.
  intros rho u1 dc r0 dth d v f Hd Hf H. destruct (limb_weights _ _ _ _ _ _ _ H) as (ws & L & -> & W).
  f_equal. f_equal. assert (L5 : (5 <= length d)%nat).
  { unfold process_r_limb in H. destruct (Nat.ltb_spec (length d) 5); [discriminate|lia]. }
  apply nth_ext with (d := 0) (d' := 0). rewrite map_length, firstn_length, skipn_length. lia.
  intros i Hi. destruct (W i) as (I2 & k & A & -> & _ & K & _); [lia|]. rewrite K by (apply Hd, nth_In; lia).
  rewrite Hf in A by (apply nth_In; lia). injection A as <-.
  rewrite (nth_map_lt _ _ _ 0) by (rewrite firstn_length, skipn_length; lia). rewrite Rmult_1_r. f_equal.
  rewrite <- (firstn_skipn 2 d) at 1. rewrite app_nth2; rewrite firstn_length_le by lia; [|lia].
  replace (i + 2 - 2)%nat with i by lia. rewrite <- (firstn_skipn (length d - 4) (skipn 2 d)) at 1.
  rewrite app_nth1; auto. rewrite firstn_length, skipn_length. lia.
Qed.

(** ** boundary weight against the covered length 1/2 + delta of a uniform source *)
Lemma facB_uniform_weight x c : c < x -> 0 < x -> (calc_facB x c = 1 / 2 + x <-> x = 2 / 5).
Proof.
  intros Hc Hx. unfold calc_facB. destruct (Rltb_spec c x); [|lra].
  replace 0.5 with (1 / 2) by lra.
  assert (P : 0 < 1 / 2 / x) by (apply Rdiv_lt_0_compat; lra).
  split; intros H.
  - assert (Q : sqrt (1 + 1 / 2 / x) = 3 / 2).
    { apply (Rmult_eq_reg_r (2 / 3 * (1 / 2 + x))); [|apply Rgt_not_eq; nra]. nra. }
    apply (f_equal (fun t => t * t)) in Q. rewrite sqrt_sqrt in Q by lra.
    assert (1 / 2 / x = 5 / 4) by lra. apply (f_equal (fun t => t * x)) in H0. field_simplify in H0; lra.
  - rewrite H. replace (1 + 1 / 2 / (2 / 5)) with (3 / 2 * (3 / 2)) by field. rewrite sqrt_square by lra. lra.
Qed.
Lemma facB_uniform_small x c : 0 < x <= c -> calc_facB x c < 1 / 2 + x.
Proof. intros H. unfold calc_facB. destruct (Rltb_spec c x); lra. Qed.

Definition vshape : list R := [4; 3; 2; 1; 2; 3; 4].
Ltac min_max_const :=
  match goal with
  | |- context [Rmin ?a ?b] => first [rewrite (Rmin_left a b) by lra | rewrite (Rmin_right a b) by lra]
  | |- context [Rmax ?a ?b] => first [rewrite (Rmax_left a b) by lra | rewrite (Rmax_right a b) by lra]
  end.
Lemma vshape_scale : scale_of (windows 4 vshape) zero_term = 3 /\ scale_of (windows 3 vshape) zero_term = 3 /\
  scale_of (windows 3 (tl vshape)) zero_term = 3.
Proof.
  unfold scale_of, interp_window, zero_term. cbn [windows vshape tl map seq nth Nat.add entries flat_map app jmin jmax fold_left snd].
  repeat split; repeat min_max_const; lra.
Qed.
Lemma lagr_left : 0.99 <= lagr zero_term 3 3 4 3 2 1 0 1 2 3 <= 1.01.
Proof.
  replace (lagr zero_term 3 3 4 3 2 1 0 1 2 3) with (2 / ((1 - (zero_term * 3) ^ 2) * (2 + zero_term * 3)))
    by (unfold lagr, zero_term; field; lra).
  set (D := (1 - (zero_term * 3) ^ 2) * (2 + zero_term * 3)).
  assert (HD : 1.999 <= D <= 2.001) by (unfold D, zero_term; lra).
  split; apply Rmult_le_reg_r with D; try lra; unfold Rdiv; rewrite Rmult_assoc, Rinv_l; lra.
Qed.
Lemma lagr_right : 1.99 <= lagr zero_term 3 3 1 2 3 4 0 1 2 3 <= 2.01.
Proof.
  replace (lagr zero_term 3 3 1 2 3 4 0 1 2 3) with (4 / ((1 - (zero_term * 3) ^ 2) * (2 + zero_term * 3)))
    by (unfold lagr, zero_term; field; lra).
  set (D := (1 - (zero_term * 3) ^ 2) * (2 + zero_term * 3)).
  assert (HD : 1.999 <= D <= 2.001) by (unfold D, zero_term; lra).
  split; apply Rmult_le_reg_r with D; try lra; unfold Rdiv; rewrite Rmult_assoc, Rinv_l; lra.
Qed.
Lemma facB_near_one x : 0.98 <= x <= 1.02 -> calc_facB x 0.01 <= 1.25.
Proof.
  intros H. unfold calc_facB. destruct (Rltb_spec 0.01 x); [|lra].
  assert (0.5 / x <= 0.5103).
  { apply Rmult_le_reg_r with x; [lra|]. unfold Rdiv. rewrite Rmult_assoc, Rinv_l by lra. nra. }
  assert (S1 : sqrt (1 + 0.5 / x) <= 1.2296).
  { rewrite <- (sqrt_square 1.2296) by lra. apply sqrt_le_1_alt. lra. }
  pose proof (sqrt_pos (1 + 0.5 / x)). nra.
Qed.
Lemma clip01_near x : 0.99 <= x -> 0.99 <= clip01 x <= 1.
Proof. intros. unfold clip01, Rmin, Rmax. repeat destruct (Rle_dec _ _); lra. Qed.

Ltac okw := unfold ok4, zero_term; repeat split; lra.
Lemma vshape_uniform : exists v, process_r_uniform 3 1 1 vshape = Ok (Some v) /\ 3.98 <= v.
Proof.
  destruct vshape_scale as (S1 & _).
  rewrite process_r_uniform_eq by (simpl; lia).
  assert (E : uniform_terms 3 1 1 vshape = map Some
     [uniform_cell 3 1 1 3 2 (lagr zero_term 3 3 4 3 2 1 0 1 2 3); uniform_cell 3 1 1 2 1 (lagr zero_term 3 3 3 2 1 2 0 1 2 3);
      uniform_cell 3 1 1 1 2 (lagr zero_term 3 3 2 1 2 3 0 1 2 3); uniform_cell 3 1 1 2 3 (lagr zero_term 3 3 1 2 3 4 0 1 2 3)]).
  { assert (K : forall i, (i < 4)%nat -> nth_error (uniform_terms 3 1 1 vshape) i = nth_error (map Some
     [uniform_cell 3 1 1 3 2 (lagr zero_term 3 3 4 3 2 1 0 1 2 3); uniform_cell 3 1 1 2 1 (lagr zero_term 3 3 3 2 1 2 0 1 2 3);
      uniform_cell 3 1 1 1 2 (lagr zero_term 3 3 2 1 2 3 0 1 2 3); uniform_cell 3 1 1 2 3 (lagr zero_term 3 3 1 2 3 4 0 1 2 3)]) i).
    { intros i Hi. destruct (uniform_term_nth 3 1 1 vshape i) as (te & T1 & ->); [simpl; lia|].
      change (length vshape - 3)%nat with 4%nat in T1.
      do 4 (destruct i as [|i]; [erewrite cubic_interp_nth in T1; [|rewrite S1; lra|apply windows_nth; lia|
        rewrite S1; cbn [nth vshape Nat.add]; okw]; rewrite S1 in T1; injection T1 as <-; reflexivity|]). lia. }
    apply (list_eq_nth None). now rewrite uniform_terms_length.
    intros i Hi. rewrite uniform_terms_length in Hi. change (length vshape - 3)%nat with 4%nat in Hi.
    specialize (K i Hi). rewrite (nth_error_nth' _ (None : option R)) in K by (rewrite uniform_terms_length; simpl; lia).
    rewrite (nth_error_nth' _ (None : option R)) in K by (simpl; lia). injection K as K. exact K. }
  rewrite E, osum_map_some. eexists. split; [reflexivity|]. simpl sumR.
  pose proof lagr_left. pose proof lagr_right.
  rewrite !uniform_cell_scale.
  destruct (cell_weight_cases 3 3 2 (lagr zero_term 3 3 4 3 2 1 0 1 2 3)) as (_ & _ & _ & _ & ->); try lra.
  destruct (cell_weight_cases 3 2 1 (lagr zero_term 3 3 3 2 1 2 0 1 2 3)) as (_ & -> & _); try lra.
  destruct (cell_weight_cases 3 1 2 (lagr zero_term 3 3 2 1 2 3 0 1 2 3)) as (_ & -> & _); try lra.
  destruct (cell_weight_cases 3 2 3 (lagr zero_term 3 3 1 2 3 4 0 1 2 3)) as (_ & _ & _ & -> & _); try lra.
  pose proof (clip01_near (2 - lagr zero_term 3 3 4 3 2 1 0 1 2 3)). pose proof (clip01_near (lagr zero_term 3 3 1 2 3 4 0 1 2 3 - 1)). lra.
Qed.
Lemma vshape_limb : exists v, process_r_limb 3 0 0.01 1 1 vshape = Ok (Some v) /\ v * PI <= 3.5.
Proof.
  destruct vshape_scale as (_ & S1 & S2). pose proof PI_RGT_0 as HPI.
  rewrite process_r_limb_eq by (simpl; lia).
  assert (X : forall i, (i < 3)%nat -> exists x t1 t2, nth_error (limb_terms 3 0 0.01 1 1 vshape) i = Some (Some x) /\
     nth_error (cubic_interp 3 (windows 3 vshape) 0 1 2 3 zero_term) i = Some (Some t1) /\
     nth_error (cubic_interp 3 (windows 3 (tl vshape)) 0 1 2 3 zero_term) i = Some (Some t2) /\
     x = / PI * limb_weight 3 0.01 (nth (i + 1) vshape 0) (nth (i + 2) vshape 0) (nth (i + 3) vshape 0) t1 t2 /\
     (i = 0%nat -> t1 = lagr zero_term 3 3 4 3 2 1 0 1 2 3) /\ (i = 2%nat -> t2 = lagr zero_term 3 3 1 2 3 4 0 1 2 3)).
  { intros i Hi.
    assert (T1 : exists t1, nth_error (cubic_interp 3 (windows 3 vshape) 0 1 2 3 zero_term) i = Some (Some t1) /\ (i = 0%nat -> t1 = lagr zero_term 3 3 4 3 2 1 0 1 2 3)).
    { eexists. split; [apply cubic_interp_nth; [rewrite S1; lra|now apply windows_nth|rewrite S1; do 3 (destruct i as [|i]; [cbn [nth vshape Nat.add]; okw|]); lia]|].
      intros ->. rewrite S1. reflexivity. }
    assert (T2 : exists t2, nth_error (cubic_interp 3 (windows 3 (tl vshape)) 0 1 2 3 zero_term) i = Some (Some t2) /\ (i = 2%nat -> t2 = lagr zero_term 3 3 1 2 3 4 0 1 2 3)).
    { eexists. split; [apply cubic_interp_nth; [rewrite S2; lra|now apply windows_nth|rewrite S2; do 3 (destruct i as [|i]; [cbn [nth vshape tl Nat.add]; okw|]); lia]|].
      intros ->. rewrite S2. reflexivity. }
    destruct T1 as (t1 & T1 & V1). destruct T2 as (t2 & T2 & V2).
    assert (TI : Is_limb_1st (nth (i + 2) vshape 0 / 3) 0 = Some (/ PI)).
    { apply limb_uniform. do 3 (destruct i as [|i]; [simpl; lra|]). lia. }
    exists (/ PI * limb_weight 3 0.01 (nth (i + 1) vshape 0) (nth (i + 2) vshape 0) (nth (i + 3) vshape 0) t1 t2), t1, t2.
    repeat split; auto.
    unfold limb_terms. change (length vshape - 4)%nat with 3%nat. rewrite nth_error_map.
    assert (Qs : nth_error (seq 0 3) i = Some i).
    { rewrite (nth_error_nth' _ 0%nat) by (rewrite seq_length; auto). rewrite seq_nth by auto. reflexivity. }
    rewrite (combine_nth_error _ _ i _ _ Qs (combine_nth_error _ _ i _ _ T1 T2)). cbv beta iota delta [option_map]. rewrite TI.
    rewrite limb_cell_scale. do 2 f_equal. ring. }
  destruct (X 0%nat) as (x0 & a0 & b0 & N0 & _ & _ & E0 & A0 & _); [lia|].
  destruct (X 1%nat) as (x1 & a1 & b1 & N1 & _ & _ & E1 & _ & _); [lia|].
  destruct (X 2%nat) as (x2 & a2 & b2 & N2 & _ & _ & E2 & _ & A2); [lia|].
  specialize (A0 eq_refl). specialize (A2 eq_refl).
  assert (L : limb_terms 3 0 0.01 1 1 vshape = map Some [x0; x1; x2]).
  { apply (list_eq_nth None); [now rewrite limb_terms_length|]. intros i Hi. rewrite limb_terms_length in Hi. change (length vshape - 4)%nat with 3%nat in Hi.
    destruct i as [|[|[|i]]]; [rewrite (nth_error_nth _ _ _ N0)|rewrite (nth_error_nth _ _ _ N1)|rewrite (nth_error_nth _ _ _ N2)|lia]; reflexivity. }
  rewrite L, osum_map_some. eexists. split; [reflexivity|]. simpl sumR. rewrite E0, E1, E2. cbn [nth vshape Nat.add].
  destruct (limb_weight_cases 3 0.01 3 2 1 a0 b0) as (_ & _ & _ & -> & _); try lra.
  destruct (limb_weight_cases 3 0.01 2 1 2 a1 b1) as (_ & -> & _); try lra.
  destruct (limb_weight_cases 3 0.01 1 2 3 a2 b2) as (_ & _ & _ & _ & -> & _); try lra.
  pose proof lagr_left. pose proof lagr_right. rewrite A0, A2.
  pose proof (clip01_near (2 - lagr zero_term 3 3 4 3 2 1 0 1 2 3)). pose proof (clip01_near (lagr zero_term 3 3 1 2 3 4 0 1 2 3 - 1)).
  pose proof (facB_near_one (clip01 (2 - lagr zero_term 3 3 4 3 2 1 0 1 2 3) + zero_term)) as F1.
  pose proof (facB_near_one (clip01 (lagr zero_term 3 3 1 2 3 4 0 1 2 3 - 1) + zero_term)) as F2.
  assert (zero_term = 1e-10) as Hz by reflexivity.
  match goal with |- (/ PI * ?u + (/ PI * 1 + (/ PI * ?w + 0))) * PI <= _ =>
    replace ((/ PI * u + (/ PI * 1 + (/ PI * w + 0))) * PI) with (u + 1 + w) by (field; lra) end.
  lra.
Qed.
Lemma uniform_limb_mismatch : exists d vu vl, process_r_uniform 3 1 1 d = Ok (Some vu) /\ process_r_limb 3 0 0.01 1 1 d = Ok (Some vl) /\
  0 < vu /\ vl * PI < 0.9 * vu.
Proof.
  destruct vshape_uniform as (vu & U1 & U2). destruct vshape_limb as (vl & L1 & L2).
  exists vshape, vu, vl. repeat split; auto; lra.
Qed.

(** ** one region *)
Lemma res_mapM_length {A B} (f : A -> res B) l ys : res_mapM f l = Ok ys -> length ys = length l.
Proof.
  revert ys; induction l as [|x t IH]; simpl; intros ys H. injection H as <-; auto.
  destruct (f x); simpl in H; [|discriminate]. destruct (res_mapM f t); simpl in H; [|discriminate].
  injection H as <-. simpl. f_equal. auto.
Qed.
Lemma res_mapM_nth {A B} (f : A -> res B) l ys : res_mapM f l = Ok ys ->
  forall y, In y ys -> exists x, In x l /\ f x = Ok y.
Proof.
  revert ys; induction l as [|x t IH]; simpl; intros ys H y Hy. injection H as <-; easy.
  destruct (f x) eqn:Q; simpl in H; [|discriminate]. destruct (res_mapM f t); simpl in H; [|discriminate].
  injection H as <-. destruct Hy as [<-|Hy]; [eauto|]. destruct (IH _ eq_refl y Hy) as (x' & ? & ?); eauto.
Qed.
Lemma linspace_length lo hi n : length (linspace lo hi n) = n.
Proof. unfold linspace. now rewrite map_length, seq_length. Qed.
Lemma linspace_nth lo hi n i : (i < n)%nat -> nth i (linspace lo hi n) 0 = lo + INR i * ((hi - lo) / INR (n - 1)).
Proof. intros H. unfold linspace. rewrite (nth_map_lt _ _ _ 0%nat) by (now rewrite seq_length). now rewrite seq_nth. Qed.
Lemma linspace_step lo hi n : (2 <= n)%nat -> nth 1 (linspace lo hi n) 0 - nth 0 (linspace lo hi n) 0 = (hi - lo) / INR (n - 1).
Proof. intros. rewrite !linspace_nth by lia. simpl. ring. Qed.
Lemma linspace_in lo hi n x : (2 <= n)%nat -> lo <= hi -> In x (linspace lo hi n) -> lo <= x <= hi.
Proof.
  intros Hn Hl Hx. apply (In_nth _ _ 0) in Hx. rewrite linspace_length in Hx. destruct Hx as (i & Hi & <-).
  rewrite linspace_nth by auto.
  assert (P : 0 < INR (n - 1)) by (apply lt_0_INR; lia).
  assert (Q : 0 <= INR i <= INR (n - 1)) by (split; [apply pos_INR|apply le_INR; lia]).
  assert (0 <= (hi - lo) / INR (n - 1)) by (apply Rmult_le_pos; [lra|apply Rlt_le, Rinv_0_lt_compat; auto]).
  assert (E : INR (n - 1) * ((hi - lo) / INR (n - 1)) = hi - lo) by (field; lra).
  split; [nra|]. rewrite <- (Rplus_minus lo hi) at 2. rewrite <- E at 2. nra.
Qed.

Lemma region_bounds : forall dist rho nr nth r_lo r_hi t_lo t_hi v, (2 <= nr)%nat -> (2 <= nth)%nat -> 0 <= r_lo <= r_hi -> t_lo <= t_hi ->
  compute_for_range dist (process_r_uniform rho) nr nth ((r_lo, r_hi), (t_lo, t_hi)) = Ok (Some v) ->
  0 <= v <= (r_hi - r_lo) / INR (nr - 1) * INR nr * r_hi * (t_hi - t_lo).
Proof.
  intros dist rho nr nt r_lo r_hi t_lo t_hi v Hnr Hnt Hr Ht H. unfold compute_for_range in H.
  rewrite !linspace_step in H by auto.
  destruct (res_mapM _ _) as [area|] eqn:Q in H; [|discriminate]. simpl in H. injection H as H.
  destruct (osum area) as [s|] eqn:O; [|discriminate]. simpl in H. injection H as <-.
  destruct (osum_some _ _ O) as (xs & -> & ->).
  pose proof (res_mapM_length _ _ _ Q) as L. rewrite map_length, linspace_length in L.
  assert (Pr : 0 < INR (nr - 1)) by (apply lt_0_INR; lia).
  assert (Pt : 0 < INR (nt - 1)) by (apply lt_0_INR; lia).
  assert (Dt : 0 <= (t_hi - t_lo) / INR (nt - 1)) by (apply Rmult_le_pos; [lra|apply Rlt_le, Rinv_0_lt_compat; auto]).
  assert (Dr : 0 <= (r_hi - r_lo) / INR (nr - 1)) by (apply Rmult_le_pos; [lra|apply Rlt_le, Rinv_0_lt_compat; auto]).
  assert (B : INR (length xs) * 0 <= sumR xs <= INR (length xs) * (r_hi * (t_hi - t_lo))).
  { apply sumR_bounds. intros x Hx. destruct (res_mapM_nth _ _ _ Q (Some x)) as (r0 & R1 & R2).
    apply in_map; auto. apply linspace_in in R1; auto; [|lra].
    destruct (res_mapM (dist r0) _) as [ds|] eqn:Qd in R2; [|discriminate]. simpl in R2.
    pose proof (res_mapM_length _ _ _ Qd) as Ld. rewrite linspace_length in Ld.
    apply uniform_bounds in R2; auto; [|lra]. rewrite Ld in R2.
    replace ((t_hi - t_lo) / INR (nt - 1) * INR (nt - 1)) with (t_hi - t_lo) in R2 by (field; lra).
    assert (r0 * (t_hi - t_lo) <= r_hi * (t_hi - t_lo)) by (apply Rmult_le_compat_r; lra). lra. }
  rewrite L in B. split; [apply Rmult_le_pos; lra|].
  replace ((r_hi - r_lo) / INR (nr - 1) * INR nr * r_hi * (t_hi - t_lo)) with
    ((r_hi - r_lo) / INR (nr - 1) * (INR nr * (r_hi * (t_hi - t_lo)))) by ring.
  apply Rmult_le_compat_l; lra.
Qed.

(** ** the regularised interpolant misses its nodes *)
Lemma regularised_node : exists v, cubic_interp 1 [(0, 1, 2, 3)] 0 1 2 3 zero_term = [Some v] /\ v <> 1.
Proof.
  assert (SC : scale_of [(0, 1, 2, 3)] zero_term = 3).
  { unfold scale_of, interp_window, zero_term. cbn [entries flat_map app jmin jmax fold_left snd]. repeat min_max_const; lra. }
  assert (OK : ok4 (zero_term * scale_of [(0, 1, 2, 3)] zero_term) (0, 1, 2, 3)).
  { rewrite SC. unfold ok4, zero_term. repeat split; lra. }
  pose proof (cubic_interp_nth 1 [(0, 1, 2, 3)] 0 1 2 3 zero_term 0 0 1 2 3) as H.
  rewrite SC in H. specialize (H ltac:(lra) eq_refl ltac:(rewrite SC in OK; exact OK)).
  exists (lagr zero_term 3 1 0 1 2 3 0 1 2 3). split.
  - assert (L : length (cubic_interp 1 [(0, 1, 2, 3)] 0 1 2 3 zero_term) = 1%nat) by apply cubic_interp_length.
    destruct (cubic_interp 1 [(0, 1, 2, 3)] 0 1 2 3 zero_term) as [|a [|]]; try discriminate L. simpl in H. congruence.
  - replace (lagr zero_term 3 1 0 1 2 3 0 1 2 3) with (2 / ((1 - (zero_term * 3) ^ 2) * (2 - zero_term * 3)))
      by (unfold lagr, zero_term; field; lra).
    set (D := (1 - (zero_term * 3) ^ 2) * (2 - zero_term * 3)).
    assert (HD : 1 < D < 2) by (unfold D, zero_term; lra).
    intros Q. assert (2 = D); [|lra]. apply (Rmult_eq_reg_r (/ D)); [|apply Rinv_neq_0_compat; lra].
    rewrite Rinv_r by lra. exact Q.
Qed.
