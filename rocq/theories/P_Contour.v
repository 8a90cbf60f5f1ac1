From Coq Require Import Reals Lra Lia Bool List Arith ZArith.
From Coquelicot Require Import Complex.
From Verif Require Import Base_R Base_List M_Utils S_Utils P_Utils M_Contour S_Contour.
Import ListNotations.
Local Open Scope R_scope.

Lemma combine_map2 {A B D} (f : A -> B) (g : A -> D) l : combine (map f l) (map g l) = map (fun a => (f a, g a)) l.
Proof. induction l; simpl; f_equal; auto. Qed.
Lemma combine_app2 {A B} (a a' : list A) (b b' : list B) : length a = length b ->
  combine (a ++ a') (b ++ b') = combine a b ++ combine a' b'.
Proof. revert b; induction a; intros [|y b] H; simpl in *; try lia; auto. f_equal. apply IHa. lia. Qed.

Lemma trap_spec_cons2 a b l : trap_spec (a :: b :: l) = (fst b - fst a) * ((snd a + snd b)/2) + trap_spec (b :: l).
Proof. destruct a, b. reflexivity. Qed.
Lemma shoelace_cons2 p q l : shoelace (p :: q :: l) = cross p q / 2 + shoelace (q :: l).
Proof. reflexivity. Qed.

Lemma trap_shoelace (l : list C) :
  trap_spec (map (fun p : C => (Im p, 0.5 * Re p)) l) + trap_spec (map (fun p : C => (Re p, -0.5 * Im p)) l) = shoelace l.
Proof.
  induction l as [|p [|q l] IH]; [simpl; lra|simpl; lra|].
  rewrite shoelace_cons2, <- IH. clear IH. cbn [map]. rewrite !trap_spec_cons2. cbn [fst snd]. unfold cross. lra.
Qed.

(** general trapezoid with a flat padded tail *)
Lemma trap_spec_flat l : (forall p q, In p l -> In q l -> fst p = fst q) -> trap_spec l = 0.
Proof.
  induction l as [|a [|b l] IH]; intros H; auto.
  { destruct a; reflexivity. }
  rewrite trap_spec_cons2, IH; [|intros; apply H; right; auto].
  rewrite (H b a) by (simpl; auto). lra.
Qed.

Lemma trapz_padded {A} (f g : A -> R) (d : A) (l : list A) k : l <> [] ->
  trapz_zero_avoiding (map f (l ++ repeat d k)) (map g (l ++ repeat d k)) (length l - 1) =
  trap_spec (map (fun a => (g a, f a)) l).
Proof.
  intros Hl. assert (0 < length l)%nat by (destruct l; simpl; [congruence|lia]).
  destruct k.
  - simpl. rewrite app_nil_r. unfold trapz_zero_avoiding. rewrite map_length, Nat.eqb_refl.
    rewrite trapezoid_spec by (rewrite !map_length; auto). rewrite combine_map2. reflexivity.
  - rewrite trapz_zero_avoiding_exact; rewrite ?map_length, ?app_length, ?repeat_length; try lia.
    rewrite combine_map2. replace (S (length l - 1)) with (length l) by lia.
    rewrite firstn_map, skipn_map, firstn_app, skipn_app, firstn_all, skipn_all, Nat.sub_diag.
    simpl firstn. simpl skipn. rewrite app_nil_r, app_nil_l.
    rewrite (trap_spec_flat (map _ (d :: repeat d k))); [lra|].
    intros p q Hp Hq. apply in_map_iff in Hp, Hq. destruct Hp as (x & <- & Hx), Hq as (y & <- & Hy). simpl fst.
    assert (U : forall z, In z (d :: repeat d k) -> z = d) by (intros z [<-|Hz]; auto; apply repeat_spec in Hz; auto).
    rewrite (U x Hx), (U y Hy). reflexivity.
Qed.

Lemma unif_shoelace (l : list C) k : l <> [] ->
  integrate_unif (l ++ repeat (RtoC 0) k) (length l - 1) = shoelace l.
Proof.
  intros H. unfold integrate_unif.
  rewrite (trapz_padded (fun p : C => 0.5 * Re p) (fun p : C => Im p)) by auto.
  rewrite (trapz_padded (fun p : C => -0.5 * Im p) (fun p : C => Re p)) by auto.
  apply trap_shoelace.
Qed.
Lemma unif_shoelace0 (l : list C) : l <> [] -> integrate_unif l (length l - 1) = shoelace l.
Proof. intros H. rewrite <- (unif_shoelace l 0 H). simpl. rewrite app_nil_r. reflexivity. Qed.

(** transformation laws of the shoelace sum *)
Lemma shoelace_translate c l : l <> [] ->
  shoelace (map (fun p => (p + c)%C) l) = shoelace l + cross c (last l (RtoC 0) - hd (RtoC 0) l)%C / 2.
Proof.
  induction l as [|p [|q l] IH]; intros H; [congruence| |].
  - simpl. unfold cross. simpl. lra.
  - cbn [map] in *. rewrite !shoelace_cons2. rewrite IH by congruence.
    change (last (p :: q :: l) (RtoC 0)) with (last (q :: l) (RtoC 0)).
    set (e := last (q :: l) (RtoC 0)). clearbody e. unfold cross, hd. destruct p, q, c, e. simpl. lra.
Qed.
Lemma shoelace_translate_closed c l : closed_list l ->
  shoelace (map (fun p => (p + c)%C) l) = shoelace l.
Proof.
  intros H. destruct l as [|p l]; [reflexivity|]. rewrite shoelace_translate by congruence. rewrite H.
  unfold cross. set (e := last (p :: l) _). destruct c, e. simpl. lra.
Qed.
Lemma shoelace_scale w l : shoelace (map (fun p => (w * p)%C) l) = (Re w ^ 2 + Im w ^ 2) * shoelace l.
Proof.
  induction l as [|p [|q l] IH]; [simpl; lra|simpl; lra|].
  cbn [map] in *. rewrite !shoelace_cons2, IH. unfold cross. destruct p, q, w; simpl. lra.
Qed.
Lemma shoelace_conj l : shoelace (map Cconj l) = - shoelace l.
Proof.
  induction l as [|p [|q l] IH]; [simpl; lra|simpl; lra|].
  cbn [map] in *. rewrite !shoelace_cons2, IH. unfold cross. destruct p, q; simpl. lra.
Qed.
Lemma shoelace_app l p m : shoelace (l ++ p :: m) = shoelace (l ++ [p]) + shoelace (p :: m).
Proof.
  induction l as [|a [|b l] IH].
  - simpl. destruct m; simpl; lra.
  - simpl app. rewrite !shoelace_cons2. simpl. destruct m; lra.
  - change ((a :: b :: l) ++ p :: m) with (a :: b :: (l ++ p :: m)).
    change ((a :: b :: l) ++ [p]) with (a :: b :: (l ++ [p])).
    rewrite !shoelace_cons2. change (b :: l ++ p :: m) with ((b :: l) ++ p :: m).
    rewrite IH. simpl app. lra.
Qed.
Lemma shoelace_rev l : shoelace (rev l) = - shoelace l.
Proof.
  induction l as [|p [|q l] IH]; [simpl; lra|simpl; lra|].
  change (rev (p :: q :: l)) with ((rev l ++ [q]) ++ [p]).
  rewrite <- app_assoc. simpl ([q] ++ [p]). rewrite shoelace_app.
  change (rev l ++ [q]) with (rev (q :: l)). rewrite IH. rewrite !shoelace_cons2. unfold cross; simpl. lra.
Qed.
(** cutting a closed polygon along a chord *)
Lemma shoelace_chord p l1 q l2 :
  shoelace (p :: l1 ++ q :: l2 ++ [p]) = shoelace (p :: l1 ++ [q; p]) + shoelace (p :: q :: l2 ++ [p]).
Proof.
  change (p :: l1 ++ q :: l2 ++ [p]) with ((p :: l1) ++ q :: l2 ++ [p]).
  change (p :: l1 ++ [q; p]) with ((p :: l1) ++ q :: [p]).
  rewrite (shoelace_app (p :: l1) q (l2 ++ [p])), (shoelace_app (p :: l1) q [p]).
  rewrite !shoelace_cons2. simpl. unfold cross. lra.
Qed.
(** starting the closed contour at another vertex *)
Lemma shoelace_rotate l1 p l2 q :
  shoelace ((q :: l1) ++ p :: l2 ++ [q]) = shoelace ((p :: l2) ++ q :: l1 ++ [p]).
Proof.
  rewrite (shoelace_app (q :: l1)), (shoelace_app (p :: l2)). simpl app. lra.
Qed.
Lemma shoelace_triangle a b c :
  shoelace [a; b; c; a] = ((Re b - Re a) * (Im c - Im a) - (Re c - Re a) * (Im b - Im a)) / 2.
Proof. simpl. unfold cross. lra. Qed.

Lemma shoelace_map_const {A} (f : A -> C) l k : (forall i, (S i < length l)%nat -> forall d, cross (f (nth i l d)) (f (nth (S i) l d)) = k) ->
  shoelace (map f l) = INR (length l - 1) * (k / 2).
Proof.
  induction l as [|p [|q l] IH]; intros H; [simpl; lra|simpl; lra|].
  cbn [map] in *. rewrite shoelace_cons2.
  rewrite IH; [|intros i Hi d; apply (H (S i)); simpl in *; lia].
  pose proof (H 0%nat ltac:(simpl; lia) p) as H0. cbn [nth] in H0. rewrite H0. replace (length (p :: q :: l) - 1)%nat with (S (length (q :: l) - 1)) by (simpl; lia).
  rewrite S_INR. lra.
Qed.

Lemma ngon_area c r n : (0 < n)%nat -> shoelace (ngon c r n) = INR n / 2 * r ^ 2 * sin (2 * PI / INR n).
Proof.
  intros Hn. assert (Hn' : INR n <> 0) by (apply not_0_INR; lia).
  set (g := fun i => (r * cos (2 * PI * INR i / INR n), r * sin (2 * PI * INR i / INR n)) : C).
  assert (Q : ngon c r n = map (fun p => (p + c)%C) (map g (seq 0 (S n)))).
  { unfold ngon. rewrite map_map. apply map_ext. intros i. unfold g. destruct c; simpl. unfold Cplus; simpl. f_equal; lra. }
  rewrite Q, shoelace_translate_closed.
  2:{ unfold closed_list. rewrite seq_S, map_app. change (map g [(0 + n)%nat]) with [g (0 + n)%nat]. rewrite last_last.
      destruct n as [|n]; [lia|]. cbn [seq map hd app]. unfold g. simpl (0 + S n)%nat.
      replace (2 * PI * INR (S n) / INR (S n)) with (0 + 2 * PI) by (field; auto).
      replace (2 * PI * INR 0 / INR (S n)) with 0 by (simpl; field; auto).
      rewrite cos_plus, sin_plus, cos_2PI, sin_2PI, cos_0, sin_0. f_equal; lra. }
  rewrite (shoelace_map_const g _ (r ^ 2 * sin (2 * PI / INR n))).
  - rewrite seq_length. simpl (S n - 1)%nat. rewrite Nat.sub_0_r. field.
  - intros i Hi d. rewrite seq_length in Hi. rewrite !seq_nth by lia. simpl (0 + i)%nat. simpl (0 + S i)%nat.
    unfold cross, g. cbn [Re Im fst snd].
    replace (2 * PI / INR n) with (2 * PI * INR (S i) / INR n - 2 * PI * INR i / INR n) by (rewrite S_INR; field; auto).
    rewrite sin_minus. ring.
Qed.

(** limb-darkened integral with u1 = 0 *)
Lemma gl_const gl a b : sumR (map snd gl) = 2 -> integrate_gl gl (fun _ => 1) a b = b - a.
Proof.
  intros H. unfold integrate_gl.
  rewrite (map_ext _ (fun pw : R * R => (0.5 * (b - a)) * snd pw)) by (intros; lra).
  rewrite sumR_map_scal, H. lra.
Qed.
Lemma brightness_uniform lens rho w0 z : brightness_profile lens rho w0 0 z = 1.
Proof. unfold brightness_profile. lra. Qed.
Lemma gl_ext gl f g a b : (forall x, f x = g x) -> integrate_gl gl f a b = integrate_gl gl g a b.
Proof. intros H. unfold integrate_gl. f_equal. apply map_ext. intros. rewrite H. reflexivity. Qed.
Lemma ld_P_uniform lens gl1 gl2 rho w0 y0 p : sumR (map snd gl1) = 2 -> sumR (map snd gl2) = 2 ->
  ld_P lens gl1 gl2 rho w0 0 y0 p = -0.5 * (Im p - y0).
Proof.
  intros H1 H2. unfold ld_P.
  rewrite !(gl_ext _ (fun y => brightness_profile lens rho w0 0 (Re p, y)) (fun _ => 1)) by (intros; apply brightness_uniform).
  rewrite !gl_const by auto. lra.
Qed.
Lemma ld_Q_uniform lens gl1 gl2 rho w0 x0 p : sumR (map snd gl1) = 2 -> sumR (map snd gl2) = 2 ->
  ld_Q lens gl1 gl2 rho w0 0 x0 p = 0.5 * (Re p - x0).
Proof.
  intros H1 H2. unfold ld_Q.
  rewrite !(gl_ext _ (fun x => brightness_profile lens rho w0 0 (x, Im p)) (fun _ => 1)) by (intros; apply brightness_uniform).
  rewrite !gl_const by auto. lra.
Qed.
Lemma trap_shoelace_shift (l : list C) x0 y0 :
  trap_spec (map (fun p : C => (Re p, -0.5 * (Im p - y0))) l) + trap_spec (map (fun p : C => (Im p, 0.5 * (Re p - x0))) l)
  = shoelace (map (fun p => (p + - (x0, y0))%C) l).
Proof.
  induction l as [|p [|q l] IH]; [simpl; lra|simpl; lra|].
  cbn [map] in *. rewrite shoelace_cons2, <- IH. clear IH. rewrite !trap_spec_cons2. cbn [fst snd].
  unfold cross. destruct p, q; simpl. lra.
Qed.
Lemma ld_uniform lens gl1 gl2 (l : list C) k w0 rho : l <> [] -> closed_list l ->
  sumR (map snd gl1) = 2 -> sumR (map snd gl2) = 2 ->
  integrate_ld lens gl1 gl2 (l ++ repeat (RtoC 0) k) (length l - 1) w0 rho 0 = shoelace l.
Proof.
  intros Hl Hc H1 H2. unfold integrate_ld. set (z0 := (sumC _ / _)%C). clearbody z0.
  rewrite (map_ext (ld_P _ _ _ _ _ _ _) (fun p : C => -0.5 * (Im p - Im z0))) by (intros; apply ld_P_uniform; auto).
  rewrite (map_ext (ld_Q _ _ _ _ _ _ _) (fun p : C => 0.5 * (Re p - Re z0))) by (intros; apply ld_Q_uniform; auto).
  rewrite (trapz_padded (fun p : C => -0.5 * (Im p - Im z0)) (fun p : C => Re p)) by auto.
  rewrite (trapz_padded (fun p : C => 0.5 * (Re p - Re z0)) (fun p : C => Im p)) by auto.
  rewrite trap_shoelace_shift, shoelace_translate_closed; auto.
Qed.

(** ** packed buffers *)
Lemma packed_length {A} (d : A) n l : (length l <= n)%nat -> length (packed d n l) = n.
Proof. intros. unfold packed. rewrite app_length, repeat_length. lia. Qed.
Lemma nth_packed {A} (d : A) n l i : nth i (packed d n l) d = nth i l d.
Proof.
  unfold packed. destruct (Nat.lt_ge_cases i (length l)).
  - rewrite app_nth1; auto.
  - rewrite app_nth2 by auto. rewrite nth_repeat, nth_overflow; auto.
Qed.
Lemma packed_snoc {A} (d : A) n l x : (length l < n)%nat -> upd (packed d n l) (length l) x = packed d n (l ++ [x]).
Proof.
  intros H. apply (list_eq_nth d).
  - rewrite upd_length, !packed_length; rewrite ?app_length; simpl; lia.
  - intros i Hi. rewrite upd_length, packed_length in Hi by lia.
    rewrite nth_upd, !nth_packed. rewrite packed_length by lia.
    destruct (Nat.eq_dec i (length l)) as [->|Hne].
    + rewrite Nat.eqb_refl. rewrite app_nth2, Nat.sub_diag by lia.
      destruct (Nat.ltb_spec (length l) n); simpl; auto; lia.
    + assert (Q : (length l =? i)%nat = false) by (apply Nat.eqb_neq; lia).
      assert (Q' : (i =? length l)%nat = false) by (apply Nat.eqb_neq; lia).
      rewrite ?Q, ?Q'. simpl.
      destruct (Nat.lt_ge_cases i (length l)).
      * rewrite app_nth1; auto.
      * rewrite !nth_overflow; rewrite ?app_length; simpl; auto; lia.
Qed.

Lemma last_nonzero_packed n (l : list C) : l <> [] -> Re (last l (RtoC 0)) <> 0 ->
  last_nonzero (map (fun p : C => Re p) (packed (RtoC 0) n l)) = (length l - 1)%nat.
Proof.
  intros Hl Hr. destruct (@exists_last _ l Hl) as (l' & p & ->). rewrite last_last in Hr.
  destruct (last_nonzero_spec (map (fun p : C => Re p) (packed (RtoC 0) n (l' ++ [p])))) as [A _].
  set (x := map _ _) in *.
  assert (Hx : forall i, nth i x 0 = Re (nth i (l' ++ [p]) (RtoC 0))).
  { intros i. unfold x. etransitivity; [exact (map_nth (fun p : C => Re p) (packed (RtoC 0) n (l' ++ [p])) (RtoC 0) i)|]. rewrite nth_packed. reflexivity. }
  assert (In (Re p) x). { unfold x, packed. rewrite !map_app. simpl. apply in_or_app. left. apply in_or_app. right. simpl. auto. }
  destruct (A (ex_intro _ (Re p) (conj H Hr))) as (L & N & Af).
  rewrite app_length. simpl.
  assert (Hp : nth (length l') x 0 = Re p) by (rewrite Hx, app_nth2, Nat.sub_diag by lia; reflexivity).
  assert (Hlen : (length l' < length x)%nat).
  { unfold x, packed. rewrite map_length, !app_length. simpl. lia. }
  replace (length l' + 1 - 1)%nat with (length l') by lia.
  destruct (Nat.lt_trichotomy (last_nonzero x) (length l')) as [Hlt|[He|Hgt]]; auto.
  - exfalso. refine (Af (length l') (conj Hlt Hlen) _). rewrite Hp. auto.
  - exfalso. apply N. rewrite Hx, nth_overflow; auto. rewrite app_length; simpl; lia.
Qed.

Lemma close_contour_packed n (l : list C) : l <> [] -> (length l < n)%nat -> Re (last l (RtoC 0)) <> 0 ->
  close_contour (packed (RtoC 0) n l) = packed (RtoC 0) n (l ++ [hd (RtoC 0) l]).
Proof.
  intros Hl Hn Hr. unfold close_contour. rewrite last_nonzero_packed by auto.
  assert (0 < length l)%nat by (destruct l; simpl; [congruence|lia]).
  replace (length l - 1 + 1)%nat with (length l) by lia.
  rewrite nth_packed. rewrite packed_snoc by auto. destruct l; [congruence|]. reflexivity.
Qed.

Lemma open_contour_area n l : l <> [] -> (length l < n)%nat ->
  Re (last l (RtoC 0)) <> 0 -> Re (hd (RtoC 0) l) <> 0 ->
  let c := close_contour (packed (RtoC 0) n l) in
  integrate_unif c (last_nonzero (map (fun p : C => Re p) c)) = shoelace (l ++ [hd (RtoC 0) l]).
Proof.
  intros Hl Hn Hr Hh c. unfold c. rewrite close_contour_packed by auto.
  rewrite last_nonzero_packed; [| |rewrite last_last; auto]; [|destruct l; simpl; congruence].
  unfold packed. rewrite unif_shoelace; auto. destruct l; simpl; congruence.
Qed.

Lemma closed_contour_area (l : list C) par : l <> [] ->
  let c := fst (contour_of_closed (l, par)) in
  integrate_unif c (length c - 1) = shoelace (l ++ [hd (RtoC 0) l]).
Proof.
  intros Hl c. unfold c, contour_of_closed. cbn [fst].
  replace (nth 0 l (RtoC 0)) with (hd (RtoC 0) l) by (destruct l; auto).
  apply unif_shoelace0. destruct l; simpl; congruence.
Qed.

(** the single-lens branch passes the tail of the un-closed list: the closing chord is left out *)
Lemma n1_contour_open (l : list C) par : l <> [] ->
  integrate_unif (fst (contour_of_closed (l, par))) (length l - 1) = shoelace l.
Proof.
  intros Hl. unfold contour_of_closed. cbn [fst]. set (p0 := nth 0 l (RtoC 0)).
  unfold integrate_unif.
  assert (E : forall (f g : C -> R), trapz_zero_avoiding (map f (l ++ [p0])) (map g (l ++ [p0])) (length l - 1) = trap_spec (map (fun a => (g a, f a)) l)).
  { intros f g. apply (trapz_padded f g p0 l 1 Hl). }
  rewrite (E (fun p : C => 0.5 * Re p) (fun p : C => Im p)), (E (fun p : C => -0.5 * Im p) (fun p : C => Re p)).
  apply trap_shoelace.
Qed.
Lemma shoelace_close p l : shoelace ((p :: l) ++ [p]) = shoelace (p :: l) + cross (last (p :: l) (RtoC 0)) p / 2.
Proof.
  destruct (@exists_last _ (p :: l) ltac:(congruence)) as (l' & q & Q). rewrite Q, last_last, <- app_assoc.
  simpl. rewrite shoelace_app. simpl. lra.
Qed.

(** totals *)
Lemma sumR_map_ext {A} (f g : A -> R) l : (forall a, In a l -> f a = g a) -> sumR (map f l) = sumR (map g l).
Proof. intros H. f_equal. apply map_ext_in. auto. Qed.

Definition closed_area (s : list C * R) : R := shoelace (fst s ++ [hd (RtoC 0) (fst s)]) * snd s.

Lemma mag_n23_total (closed opened : list (list C * R)) n rho :
  (forall s, In s closed -> fst s <> []) ->
  (forall s, In s opened -> fst s <> [] /\ (length (fst s) < n)%nat /\ Re (last (fst s) (RtoC 0)) <> 0 /\ Re (hd (RtoC 0) (fst s)) <> 0) ->
  mag_ext_n23 integrate_unif
    (map (fun s => (fst s, repeat (snd s) (length (fst s)))) closed)
    (map (fun s => (packed (RtoC 0) n (fst s), packed 0 n (repeat (snd s) (length (fst s))))) opened) false rho
  = Rabs (sumR (map closed_area closed) + sumR (map closed_area opened)) / (PI * rho ^ 2).
Proof.
  intros Hc Ho. unfold mag_ext_n23. rewrite !map_map.
  f_equal. f_equal. f_equal.
  - apply sumR_map_ext. intros [l p] Hs. specialize (Hc _ Hs). cbn [fst snd] in *.
    rewrite (closed_contour_area l) by auto. unfold closed_area. cbn [fst snd contour_of_closed]. destruct l; [congruence|]. reflexivity.
  - apply sumR_map_ext. intros [l p] Hs. destruct (Ho _ Hs) as (H1 & H2 & H3 & H4). cbn [fst snd] in *.
    unfold contour_of_open. cbn [fst snd]. rewrite open_contour_area by auto.
    unfold closed_area. cbn [fst snd]. rewrite nth_packed. destruct l; [congruence|]. reflexivity.
Qed.

(** tail index derived from the real parts: a last point on the imaginary axis is overwritten *)
Lemma close_contour_imag_lost : exists n (l : list C), (length l < n)%nat /\ (forall p, In p l -> p <> RtoC 0) /\
  ~ In (last l (RtoC 0)) (close_contour (packed (RtoC 0) n l)).
Proof.
  exists 4%nat, [RtoC 1; (1, 1) : C; (0, 1) : C]. split; [simpl; lia|]. split.
  - intros p Hp Ep. rewrite Ep in Hp. simpl in Hp. destruct Hp as [H|[H|[H|[]]]].
    + apply (f_equal fst) in H; simpl in H; lra. + apply (f_equal fst) in H; simpl in H; lra. + apply (f_equal snd) in H; simpl in H; lra.
  - unfold close_contour, packed, last_nonzero. cbn [app length repeat Nat.sub map rev existsb Re fst RtoC nth last].
    unfold nonzero. destruct (Reqb_spec 1 0); [lra|]. destruct (Reqb_spec 0 0); [|lra]. cbn [negb orb].
    unfold argmax_bool. cbn [find_true option_map Nat.sub Nat.add upd].
    intros [H|[H|[H|[H|[]]]]].
    + apply (f_equal fst) in H; simpl in H; lra. + apply (f_equal fst) in H; simpl in H; lra. + apply (f_equal snd) in H; simpl in H; lra. + apply (f_equal snd) in H; simpl in H; lra.
Qed.

(** the split point of the limb-darkened line integrals is outside the interval when b < a *)
Lemma ld_split_inside rho a b : 0 < rho -> a <= b -> a <= ld_split rho a b <= b.
Proof.
  intros Hr H. unfold ld_split. rewrite Rabs_pos_eq by lra. Rbool; lra.
Qed.
Lemma ld_split_outside rho a b : 0 < rho -> b < a -> a - b <= 4 * rho -> a < ld_split rho a b.
Proof.
  intros Hr H H2. unfold ld_split. rewrite Rabs_left by lra. Rbool; lra.
Qed.

(** profile facts *)
Lemma profile_inside lens rho w0 u1 z : 0 < rho -> Cmod (lens z - w0)%C <= rho -> u1 <> 3 ->
  brightness_profile lens rho w0 u1 z =
  (1 - u1 * (1 - sqrt (1 - (Cmod (lens z - w0)%C / rho) ^ 2))) / (1 - u1 / 3).
Proof.
  intros Hr H Hu. unfold brightness_profile. set (r := Cmod (lens z - w0)%C / rho).
  assert (Hr1 : 0 <= r <= 1).
  { unfold r. pose proof (Cmod_ge_0 (lens z - w0)%C). split.
    - apply Rmult_le_pos; auto. left. apply Rinv_0_lt_compat. auto.
    - apply (Rmult_le_reg_r rho); auto. unfold Rdiv. rewrite Rmult_assoc, Rinv_l by lra. lra. }
  unfold profile_B. destruct (Rleb_spec r 1) as [_|]; [|lra].
  assert (Q : safe_sqrt (1 - r ^ 2) = sqrt (1 - r ^ 2)).
  { unfold safe_sqrt. destruct (Rltb_spec 0 (1 - r ^ 2)); auto. f_equal. nra. }
  rewrite Q. field. lra.
Qed.
