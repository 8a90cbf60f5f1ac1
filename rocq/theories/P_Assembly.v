From Coq Require Import Bool List Arith ZArith Lia Permutation.
From Verif Require Import Base_R Base_List M_Assembly S_Assembly.
Import ListNotations.

Lemma pad_len_spec n k : k <> 0 -> exists q, n + pad_len n k = q * k /\ pad_len n k < k.
Proof.
  intros Hk. unfold pad_len.
  set (z := ((- Z.of_nat n) mod Z.of_nat k)%Z).
  assert (Hz : (0 <= z < Z.of_nat k)%Z) by (apply Z.mod_pos_bound; lia).
  pose proof (Z.div_mod (- Z.of_nat n) (Z.of_nat k) ltac:(lia)) as Hd. fold z in Hd.
  set (e := (- Z.of_nat n / Z.of_nat k)%Z) in *.
  exists (Z.to_nat (- e)). split; [|lia].
  assert (He : (e <= 0)%Z) by nia.
  apply Nat2Z.inj. rewrite Nat2Z.inj_add, Nat2Z.inj_mul, !Z2Nat.id by lia. nia.
Qed.

Lemma reshape_concat {A} k (l : list A) q : k <> 0 -> length l = q * k ->
  concat (reshape_rows k l) = l.
Proof.
  intros Hk. unfold reshape_rows. revert l. induction q; intros l L.
  - simpl in L. destruct l; [|discriminate]. simpl. rewrite Nat.div_0_l by auto. reflexivity.
  - rewrite L, Nat.div_mul by auto. simpl. 
    rewrite <- seq_shift, map_map.
    rewrite <- (firstn_skipn k l) at 2. f_equal.
    specialize (IHq (skipn k l)). rewrite skipn_length, L in IHq.
    rewrite <- IHq by (simpl; lia). replace (S q * k - k) with (q * k) by (simpl; lia).
    rewrite Nat.div_mul by auto. f_equal. apply map_ext. intros r.
    f_equal. rewrite skipn_skipn_add. f_equal.
Qed.

Lemma chunked_vmap_spec {A B} (pad : A) (f : A -> B) data k : k <> 0 ->
  chunked_vmap pad f data k = Ok (map f data).
Proof.
  intros Hk. unfold chunked_vmap. destruct (Nat.eqb_spec k 0); [lia|]. f_equal.
  destruct (pad_len_spec (length data) k Hk) as (q & Hq & _).
  rewrite <- concat_map.
  rewrite (reshape_concat k _ q); auto.
  - rewrite map_app, firstn_app, map_length, Nat.sub_diag. simpl. rewrite app_nil_r.
    rewrite <- (map_length f data). apply firstn_all.
  - rewrite app_length, repeat_length. auto.
Qed.

(** closed form of the stable argsort of a boolean array *)
Lemma lax_scan_map {X Y} (f : X -> Y) xs : snd (lax_scan (fun (c : unit) x => (c, f x)) tt xs) = map f xs.
Proof.
  induction xs as [|x xs IH]; cbn; [reflexivity|]. rewrite <- IH.
  destruct (lax_scan _ tt xs). reflexivity.
Qed.
Lemma chunked_vmap_scan_spec {A B} (pad : A) (f : A -> B) data k : k <> 0 ->
  chunked_vmap_scan pad f data k = Ok (map f data).
Proof.
  intros Hk. rewrite <- (chunked_vmap_spec pad f data k Hk).
  unfold chunked_vmap_scan, chunked_vmap. rewrite lax_scan_map. reflexivity.
Qed.
Lemma ssort_bool (l : list (bool * nat)) :
  ssort (fun p q => bool_le (fst p) (fst q)) l =
  filter (fun p => negb (fst p)) l ++ filter (fun p => fst p) l.
Proof.
  induction l as [|[b n] l IH]; simpl; auto. rewrite IH. clear IH.
  set (F := filter (fun p => negb (fst p)) l). set (T := filter (fun p => fst p) l).
  destruct b; simpl.
  - assert (HF : forall p, In p F -> fst p = false).
    { intros p Hp. apply filter_In in Hp. destruct Hp as [_ Hp]. now apply negb_true_iff. }
    assert (HT : forall p, In p T -> fst p = true) by (intros p Hp; apply filter_In in Hp; tauto).
    clearbody F T. induction F as [|p F IH]; simpl.
    + destruct T as [|p T]; simpl; auto. rewrite (HT p); simpl; auto.
    + rewrite (HF p) by (simpl; auto). simpl. f_equal. apply IH. intros; apply HF; simpl; auto.
  - destruct (F ++ T) as [|p r] eqn:E; simpl; auto.
Qed.

Lemma filter_combine_seq (test : list bool) (c : bool -> bool) n :
  map snd (filter (fun p => c (fst p)) (combine test (seq n (length test)))) =
  filter (fun j => c (nth (j - n) test false)) (seq n (length test)).
Proof.
  revert n; induction test as [|b t IH]; intros n; simpl; auto.
  rewrite Nat.sub_diag. 
  assert (E : filter (fun j => c (nth (j - n) (b :: t) false)) (seq (S n) (length t)) =
              filter (fun j => c (nth (j - S n) t false)) (seq (S n) (length t))).
  { apply filter_ext_in. intros j Hj. apply in_seq in Hj. replace (j - n) with (S (j - S n)) by lia. reflexivity. }
  simpl in E. simpl nth at 1. destruct (c b); simpl; rewrite IH; rewrite E; auto.
Qed.

Lemma argsort_bool test :
  argsort bool_le test =
  filter (fun j => negb (nth j test false)) (seq 0 (length test)) ++
  filter (fun j => nth j test false) (seq 0 (length test)).
Proof.
  unfold argsort. rewrite ssort_bool, map_app.
  rewrite (filter_combine_seq test negb 0), (filter_combine_seq test (fun b => b) 0).
  f_equal; apply filter_ext; intros; now rewrite Nat.sub_0_r.
Qed.

(** the i-th index satisfying P, in a filtered seq *)
Lemma nth_filter_seq (P : nat -> bool) n i : i < n -> P i = true ->
  nth (length (filter P (seq 0 i))) (filter P (seq 0 n)) 0 = i.
Proof.
  intros Hi HP. replace n with (i + (n - i)) by lia. rewrite seq_app, filter_app.
  rewrite app_nth2 by lia. rewrite Nat.sub_diag. replace (n - i) with (S (n - i - 1)) by lia.
  simpl. rewrite HP. reflexivity.
Qed.
Lemma filter_seq_length_le (P : nat -> bool) n i : i < n -> P i = true ->
  length (filter P (seq 0 i)) < length (filter P (seq 0 n)).
Proof.
  intros Hi HP. replace n with (i + (n - i)) by lia. rewrite seq_app, filter_app, app_length.
  replace (n - i) with (S (n - i - 1)) by lia. simpl. rewrite HP. simpl. lia.
Qed.

Lemma firstn_in_nth {A} (d : A) l n x : In x (firstn n l) -> exists k, k < n /\ k < length l /\ nth k l d = x.
Proof.
  intros H. destruct (In_nth _ _ d H) as (k & Hk & E). rewrite firstn_length in Hk.
  exists k. rewrite nth_firstn_lt in E by lia. repeat split; auto; lia.
Qed.

Lemma py_prefix_len_le m n : py_prefix_len m n <= n.
Proof. unfold py_prefix_len. destruct (0 <=? m)%Z; lia. Qed.

Lemma NoDup_firstn {A} n (l : list A) : NoDup l -> NoDup (firstn n l).
Proof.
  intros H. rewrite <- (firstn_skipn n l) in H. revert H. generalize (skipn n l). generalize (firstn n l).
  intros a b H. induction a; simpl in *; constructor; inversion H; subst.
  - intros Hin. apply H2. apply in_or_app; auto.
  - auto.
Qed.

Lemma assemble_spec {W M} (wpad : W) (dM : M) full w_points mu_multi test max_full chunk :
  chunk <> 0 -> length mu_multi = length w_points -> length test = length w_points ->
  exists out, assemble wpad dM full w_points mu_multi test max_full chunk = Ok out /\
    length out = length w_points /\
    forall i, i < length w_points ->
      nth i out dM = expected_mag full (fun j => nth j w_points wpad) (fun j => nth j mu_multi dM)
                       (fun j => nth j test false) (py_prefix_len max_full (length w_points)) i.
Proof.
  intros Hk Lm Lt. unfold assemble. rewrite chunked_vmap_spec by auto. simpl.
  eexists; split; [reflexivity|]. split; [now rewrite map_length, seq_length|].
  intros i Hi. rewrite nth_map_lt with (da := 0) by (rewrite seq_length; lia).
  rewrite seq_nth by lia. simpl. unfold expected_mag.
  destruct (nth i test false) eqn:Ei; auto.
  set (idx := argsort bool_le test).
  assert (Lidx : length idx = length test) by apply argsort_length.
  unfold py_prefix. rewrite Lidx, Lt.
  set (m := py_prefix_len max_full (length w_points)).
  assert (Hm : m <= length w_points) by apply py_prefix_len_le.
  set (P := fun j => negb (nth j test false)).
  set (r := rejected_before (fun j => nth j test false) i).
  assert (Hr : r < length (filter P (seq 0 (length test)))).
  { apply filter_seq_length_le; [lia|]. unfold P. now rewrite Ei. }
  assert (Hir : nth r idx 0 = i).
  { unfold idx. rewrite argsort_bool. fold P. rewrite app_nth1 by auto.
    apply nth_filter_seq; [lia|]. unfold P; now rewrite Ei. }
  assert (Hrl : r < length test).
  { rewrite <- Lidx. unfold idx. rewrite argsort_bool. fold P. rewrite app_length. lia. }
  assert (Hnd : NoDup idx) by apply argsort_nodup.
  destruct (Nat.ltb_spec r m) as [Hrm|Hrm].
  - set (ifull := firstn m idx).
    assert (Lf : length ifull = m) by (unfold ifull; rewrite firstn_length; lia).
    assert (E : nth r ifull 0 = i) by (unfold ifull; rewrite nth_firstn_lt; auto).
    rewrite <- E at 1. rewrite nth_scatter_in.
    + unfold gather. rewrite map_map. rewrite nth_map_lt with (da := 0) by lia. now rewrite E.
    + now apply NoDup_firstn.
    + unfold gather. rewrite !map_length. auto.
    + lia.
    + rewrite E; lia.
  - rewrite nth_scatter_notin; auto. intros Hin.
    destruct (firstn_in_nth 0 _ _ _ Hin) as (k & Hk1 & Hk2 & Hk3).
    rewrite NoDup_nth with (d := 0) in Hnd. specialize (Hnd k r Hk2 ltac:(lia)). rewrite Hk3, Hir in Hnd.
    specialize (Hnd eq_refl). lia.
Qed.

Lemma filter_const_true {A} (l : list A) : filter (fun _ => true) l = l.
Proof. induction l; simpl; congruence. Qed.

Lemma rejected_all_false test i : (forall j, j < i -> test j = false) -> rejected_before test i = i.
Proof.
  intros H. unfold rejected_before. rewrite (filter_ext_in _ (fun _ => true)).
  - rewrite filter_const_true. apply seq_length.
  - intros j Hj. apply in_seq in Hj. rewrite H; auto; lia.
Qed.

Lemma rejected_le test i : rejected_before test i <= i.
Proof.
  unfold rejected_before. rewrite <- (seq_length i 0) at 2.
  induction (seq 0 i) as [|a l IH]; simpl; auto. destruct (negb (test a)); simpl; lia.
Qed.

Lemma assemble_triple {W M} (wpad : W) (dM : M) full w_points mu_multi max_full chunk :
  chunk <> 0 -> length mu_multi = length w_points ->
  exists out, assemble wpad dM full w_points mu_multi (all_false w_points) max_full chunk = Ok out /\
    length out = length w_points /\
    forall i, i < length w_points ->
      nth i out dM = if i <? py_prefix_len max_full (length w_points)
                     then full (nth i w_points wpad) else nth i mu_multi dM.
Proof.
  intros Hk Lm.
  destruct (assemble_spec wpad dM full w_points mu_multi (all_false w_points) max_full chunk Hk Lm)
    as (out & E & L & H); [apply map_length|].
  exists out. split; [auto|split; [auto|]]. intros i Hi. rewrite H by auto. unfold expected_mag.
  assert (F : forall j, nth j (all_false w_points) false = false).
  { intros j. unfold all_false. clear. revert j; induction w_points; intros [|j]; simpl; auto. }
  rewrite F, rejected_all_false; auto.
Qed.

Lemma assemble_chunk_indep {W M} (wpad : W) (dM : M) full w_points mu_multi test max_full k1 k2 :
  k1 <> 0 -> k2 <> 0 ->
  assemble wpad dM full w_points mu_multi test max_full k1 =
  assemble wpad dM full w_points mu_multi test max_full k2.
Proof. intros H1 H2. unfold assemble. now rewrite !chunked_vmap_spec. Qed.

Lemma assemble_chunk_zero {W M} (wpad : W) (dM : M) full w_points mu_multi test max_full :
  assemble wpad dM full w_points mu_multi test max_full 0 = Raise ZeroDivisionError.
Proof. reflexivity. Qed.

Lemma assemble_no_budget {W M} (wpad : W) (dM : M) full w_points mu_multi test chunk :
  chunk <> 0 -> length mu_multi = length w_points -> length test = length w_points ->
  assemble wpad dM full w_points mu_multi test 0 chunk = Ok mu_multi.
Proof.
  intros Hk Lm Lt.
  destruct (assemble_spec wpad dM full w_points mu_multi test 0 chunk Hk Lm Lt) as (out & E & L & H).
  rewrite E. f_equal. apply (list_eq_nth dM); [lia|]. intros i Hi. rewrite H by lia.
  unfold expected_mag, py_prefix_len. simpl. destruct (nth i test false); auto.
Qed.

(** with an unbounded budget every rejected point is refined *)
Lemma assemble_full_budget {W M} (wpad : W) (dM : M) full w_points mu_multi test max_full chunk :
  chunk <> 0 -> length mu_multi = length w_points -> length test = length w_points ->
  (Z.of_nat (length w_points) <= max_full)%Z ->
  exists out, assemble wpad dM full w_points mu_multi test max_full chunk = Ok out /\
    forall i, i < length w_points ->
      nth i out dM = if nth i test false then nth i mu_multi dM else full (nth i w_points wpad).
Proof.
  intros Hk Lm Lt Hb.
  destruct (assemble_spec wpad dM full w_points mu_multi test max_full chunk Hk Lm Lt) as (out & E & L & H).
  exists out. split; auto. intros i Hi. rewrite H by lia. unfold expected_mag.
  destruct (nth i test false); auto.
  pose proof (rejected_le (fun j => nth j test false) i).
  assert (py_prefix_len max_full (length w_points) = length w_points).
  { unfold py_prefix_len. destruct (Z.leb_spec 0 max_full); lia. }
  destruct (Nat.ltb_spec (rejected_before (fun j => nth j test false) i) (py_prefix_len max_full (length w_points))); auto; lia.
Qed.

(** how many entries differ from the multipole baseline *)
Lemma rejected_count_budget test n b : 
  length (filter (fun i => negb (test i) && (rejected_before test i <? b)) (seq 0 n)) <= b.
Proof.
  assert (H : length (filter (fun i => negb (test i) && (rejected_before test i <? b)) (seq 0 n)) <= Nat.min b (rejected_before test n)).
  { induction n; [simpl; lia|].
    unfold rejected_before at 2. rewrite seq_S, !filter_app, !app_length. simpl.
    fold (rejected_before test n).
    destruct (test n) eqn:E; simpl; rewrite ?Nat.add_0_r; auto.
    destruct (Nat.ltb_spec (rejected_before test n) b); simpl; lia. }
  lia.
Qed.

Lemma cond_map_spec {W M} (full : W -> M) (dM : M) (dW : W) test mu w :
  length test = length w -> length mu = length w ->
  length (cond_map full test mu w) = length w /\
  forall i, i < length w -> nth i (cond_map full test mu w) dM = if nth i test false then nth i mu dM else full (nth i w dW).
Proof.
  revert test mu; induction w as [|x w IH]; intros [|t test] [|m mu] L1 L2; simpl in *; try lia.
  - split; auto. intros; lia.
  - destruct (IH test mu) as [A B]; try lia. split; [lia|].
    intros [|i] Hi; auto. apply B; lia.
Qed.

Lemma prefix_len_slice m n : py_prefix_len m n = slice_keep m n.
Proof. unfold py_prefix_len, slice_keep. destruct (Z.leb_spec 0 m), (Z.ltb_spec m 0); lia. Qed.
Lemma assemble_slice {W M} (wpad : W) (dM : M) full w_points mu_multi test max_full chunk :
  chunk <> 0 -> length mu_multi = length w_points -> length test = length w_points ->
  exists out, assemble wpad dM full w_points mu_multi test max_full chunk = Ok out /\
    length out = length w_points /\
    forall i, i < length w_points ->
      nth i out dM = expected_mag full (fun j => nth j w_points wpad) (fun j => nth j mu_multi dM)
                       (fun j => nth j test false) (slice_keep max_full (length w_points)) i.
Proof. intros A B D. rewrite <- prefix_len_slice. now apply assemble_spec. Qed.
Lemma assemble_triple_slice {W M} (wpad : W) (dM : M) full w_points mu_multi max_full chunk :
  chunk <> 0 -> length mu_multi = length w_points ->
  exists out, assemble wpad dM full w_points mu_multi (all_false w_points) max_full chunk = Ok out /\
    length out = length w_points /\
    forall i, i < length w_points ->
      nth i out dM = if i <? slice_keep max_full (length w_points)
                     then full (nth i w_points wpad) else nth i mu_multi dM.
Proof. intros A B. rewrite <- prefix_len_slice. now apply assemble_triple. Qed.
Lemma assemble_budget {W M} (wpad : W) (dM : M) full w_points mu_multi test (max_full : nat) chunk :
  chunk <> 0 -> length mu_multi = length w_points -> length test = length w_points ->
  exists out changed, assemble wpad dM full w_points mu_multi test (Z.of_nat max_full) chunk = Ok out /\
    length changed <= max_full /\
    forall i, i < length w_points -> ~ In i changed -> nth i out dM = nth i mu_multi dM.
Proof.
  intros A B D. destruct (assemble_slice wpad dM full w_points mu_multi test (Z.of_nat max_full) chunk A B D) as (out & E & L & H).
  set (b := slice_keep (Z.of_nat max_full) (length w_points)) in *.
  exists out, (filter (fun i => negb (nth i test false) && (rejected_before (fun j => nth j test false) i <? b))%bool (seq 0 (length w_points))).
  split; auto. split.
  - eapply Nat.le_trans; [apply rejected_count_budget|]. unfold b, slice_keep. destruct (Z.ltb_spec (Z.of_nat max_full) 0); lia.
  - intros i Hi N. rewrite H by auto. unfold expected_mag. destruct (nth i test false) eqn:Q; auto.
    destruct (rejected_before (fun j => nth j test false) i <? b) eqn:Q2; auto.
    exfalso. apply N. apply filter_In. split. apply in_seq; lia. now rewrite Q, Q2.
Qed.
