(** Polynomials with integer coefficients, and a checker for bounds of quotients on an interval. *)
From Coq Require Import Reals List ZArith Lia Lra Bool.
From Coquelicot Require Import Coquelicot.
Import ListNotations.
Local Open Scope R_scope.

(** lowest coefficient first *)
Fixpoint ev (l : list Z) (x : R) : R := match l with [] => 0 | c :: t => IZR c + x * ev t x end.
Fixpoint evZ (l : list Z) (x : Z) : Z := match l with [] => 0%Z | c :: t => (c + x * evZ t x)%Z end.
Fixpoint padd (a b : list Z) : list Z := match a, b with [], b => b | a, [] => a | x :: a, y :: b => (x + y)%Z :: padd a b end.
Definition pscal (k : Z) (a : list Z) : list Z := map (Z.mul k) a.
Fixpoint pmul (a b : list Z) : list Z := match a with [] => [] | x :: a => padd (pscal x b) (0%Z :: pmul a b) end.
Fixpoint pder (a : list Z) : list Z := match a with [] => [] | _ :: t => padd t (0%Z :: pder t) end.
Fixpoint pshift (m : Z) (a : list Z) : list Z := match a with [] => [] | c :: t => let s := pshift m t in padd [c] (padd (pscal m s) (0%Z :: s)) end.
Fixpoint pabs (a : list Z) : Z := match a with [] => 0%Z | c :: t => (Z.abs c + pabs t)%Z end.
(** [K^n p(y/K)] *)
Fixpoint pstretch (K : Z) (a : list Z) : list Z := match a with [] => [] | c :: t => (c * K ^ Z.of_nat (length t))%Z :: pstretch K t end.

Lemma ev_IZR l x : ev l (IZR x) = IZR (evZ l x).
Proof. induction l as [|c t IH]; simpl; [reflexivity|]. rewrite IH, plus_IZR, mult_IZR. reflexivity. Qed.
Lemma ev_padd a b x : ev (padd a b) x = ev a x + ev b x.
Proof. revert b; induction a as [|c t IH]; intros [|d b]; simpl; try ring. rewrite IH, plus_IZR. ring. Qed.
Lemma ev_pscal k a x : ev (pscal k a) x = IZR k * ev a x.
Proof. unfold pscal. induction a as [|c t IH]; cbn [map ev]; [ring|]. rewrite IH, mult_IZR. ring. Qed.
Lemma ev_pmul a b x : ev (pmul a b) x = ev a x * ev b x.
Proof. induction a as [|c t IH]; cbn [pmul ev]; [ring|]. rewrite ev_padd, ev_pscal. cbn [ev]. rewrite IH. ring. Qed.
Lemma ev_pshift m a x : ev (pshift m a) x = ev a (IZR m + x).
Proof. induction a as [|c t IH]; cbn [pshift ev]; [reflexivity|]. cbv zeta. rewrite !ev_padd, ev_pscal. cbn [ev]. rewrite IH. ring. Qed.
Lemma ev_pabs a x : Rabs x <= 1 -> Rabs (ev a x) <= IZR (pabs a).
Proof.
  intros H. induction a as [|c t IH]; cbn [ev pabs]; [rewrite Rabs_R0; lra|]. rewrite plus_IZR, abs_IZR. eapply Rle_trans; [apply Rabs_triang|]. apply Rplus_le_compat_l. rewrite Rabs_mult.
  replace (IZR (pabs t)) with (1 * IZR (pabs t)) by ring. apply Rmult_le_compat; auto using Rabs_pos.
Qed.
Lemma ev_pstretch K a x : IZR K * ev (pstretch K a) (IZR K * x) = IZR K ^ length a * ev a x.
Proof.
  induction a as [|c t IH]; cbn [pstretch ev length pow]; [ring|]. rewrite mult_IZR. rewrite <- (pow_IZR K (length t)).
  replace (IZR K * (IZR c * IZR K ^ length t + IZR K * x * ev (pstretch K t) (IZR K * x))) with (IZR K * IZR c * IZR K ^ length t + IZR K * x * (IZR K * ev (pstretch K t) (IZR K * x))) by ring. rewrite IH. ring.
Qed.
Lemma ev_pder a (x : R) : is_derive (ev a) x (ev (pder a) x).
Proof.
  induction a as [|c t IH]; cbn [pder ev]; [apply (is_derive_const (V := R_NormedModule) 0 x)|]. rewrite ev_padd. cbn [ev]. evar_last. { apply (is_derive_plus (V := R_NormedModule) (fun _ => IZR c) (fun x => x * ev t x)); [apply (is_derive_const (V := R_NormedModule) (IZR c) x)|]. apply (is_derive_mult (fun x : R => x) (ev t) x); [apply (is_derive_id (K := R_AbsRing))|exact IH|apply Rmult_comm]. }
  change (0 + (1 * ev t x + x * ev (pder t) x) = ev t x + (0 + x * ev (pder t) x)). ring.
Qed.
Lemma ev_mono a x y : forallb (Z.leb 0) a = true -> 0 <= x <= y -> 0 <= ev a x <= ev a y.
Proof.
  intros H Hx. induction a as [|c t IH]; cbn [ev]; [lra|]. cbn [forallb] in H. apply andb_prop in H as [Hc H]. apply Z.leb_le, IZR_le in Hc. specialize (IH H). split; [|apply Rplus_le_compat_l, Rmult_le_compat]; try lra. pose proof (Rmult_le_pos x (ev t x)). lra.
Qed.

Lemma pstretch_nonneg K a : (0 < K)%Z -> forallb (Z.leb 0) a = true -> forallb (Z.leb 0) (pstretch K a) = true.
Proof.
  intros HK. induction a as [|c t IH]; cbn; auto. intros H. apply andb_prop in H as [Hc H]. rewrite (IH H), andb_true_r. apply Z.leb_le in Hc. apply Z.leb_le. pose proof (Z.pow_nonneg K (Z.of_nat (length t))). nia.
Qed.

(** [|r| <= (n/d) den] on [[0, 1]]: the coefficients are cut to multiples of [2^h], the interval to [k] pieces; on each piece around an
    odd multiple of [1/(2k)] the coefficients shifted there are added up *)
Definition cut (h : Z) (a : list Z) : list Z := map (fun c => Z.shiftr c h) a.
Fixpoint pieces (A B : Z) (Dn p : list Z) (m : Z) (k : nat) : bool := match k with
  | O => true
  | S k => (A * pabs p <=? B * evZ Dn (m - 1))%Z && pieces A B Dn (pshift 2 p) (m + 2) k end.
Definition check (r den : list Z) (h n d : Z) (k : nat) : bool :=
  let r' := cut h r in let den' := cut h den in let K := (2 * Z.of_nat k)%Z in
  forallb (Z.leb 0) den' && (Z.of_nat (length r) * d <=? nth 0 den' 0)%Z &&
  pieces (d * K ^ Z.of_nat (length den)) ((n - 1) * K ^ Z.of_nat (length r)) (pstretch K den') (pshift 1 (pstretch K r')) 1 k.
Lemma cut_ev h a q : (0 <= h)%Z -> 0 <= q <= 1 -> IZR (2 ^ h) * ev (cut h a) q <= ev a q <= IZR (2 ^ h) * ev (cut h a) q + IZR (2 ^ h) * INR (length a).
Proof.
  intros Hh Hq. assert (HC : (0 < 2 ^ h)%Z) by (apply Z.pow_pos_nonneg; lia). assert (D : forall c, Z.shiftr c h = (c / 2 ^ h)%Z) by (intros c; apply Z.shiftr_div_pow2; auto). revert HC D. generalize (2 ^ h)%Z. intros C HC D.
  assert (P : 0 < IZR C) by (apply IZR_lt; auto). induction a as [|c t IH]; cbn [cut map ev length]; [simpl; lra|]. fold (cut h t). rewrite D, S_INR.
  pose proof (Z.div_mod c C ltac:(lia)) as E. pose proof (Z.mod_pos_bound c C HC) as [M1 M2]. apply IZR_le in M1. apply IZR_lt in M2. assert (E' : IZR c = IZR C * IZR (c / C) + IZR (c mod C)) by (rewrite <- mult_IZR, <- plus_IZR, <- E; reflexivity).
  set (e := ev (cut h t) q) in *. set (v := ev t q) in *. destruct IH as [I1 I2]. pose proof (pos_INR (length t)).
  pose proof (Rmult_le_compat_l q _ _ (proj1 Hq) I1) as J1. pose proof (Rmult_le_compat_l q _ _ (proj1 Hq) I2) as J2. rewrite E'. assert (q * (IZR C * INR (length t)) <= IZR C * INR (length t)). { rewrite <- (Rmult_1_l (IZR C * INR (length t))) at 2. apply Rmult_le_compat_r; [apply Rmult_le_pos; lra|lra]. }
  split; [lra|]. lra.
Qed.
Lemma pieces_sound A B Dn R : (0 <= A)%Z -> (0 <= B)%Z -> forallb (Z.leb 0) Dn = true ->
  forall k p m, (1 <= m)%Z -> (forall x, ev p x = ev R (IZR m + x)) -> pieces A B Dn p m k = true ->
  forall t, (0 < k)%nat -> IZR (m - 1) <= t <= IZR (m - 1) + 2 * INR k -> IZR A * Rabs (ev R t) <= IZR B * ev Dn t.
Proof.
  intros HA HB HD. induction k as [|k IH]; intros p m Hm Hp H t Hk Ht; [lia|]. cbn [pieces] in H. apply andb_prop in H as [H1 H2].
  destruct (Rle_lt_dec t (IZR (m - 1) + 2)) as [L|L].
  - apply Z.leb_le, IZR_le in H1. rewrite !mult_IZR in H1. rewrite minus_IZR in *. assert (Hs : Rabs (t - IZR m) <= 1) by (apply Rabs_le; lra). pose proof (ev_pabs p _ Hs) as Hb. rewrite Hp in Hb. replace (IZR m + (t - IZR m)) with t in Hb by ring.
    assert (Hd : IZR (evZ Dn (m - 1)) <= ev Dn t). { rewrite <- ev_IZR. apply ev_mono; auto. rewrite minus_IZR. split; [|lra]. apply IZR_le in Hm. lra. }
    apply IZR_le in HA. apply IZR_le in HB. pose proof (Rmult_le_compat_l _ _ _ HA Hb). pose proof (Rmult_le_compat_l _ _ _ HB Hd). lra.
  - destruct k as [|k]; [simpl in Ht; lra|]. apply (IH (pshift 2 p) (m + 2)%Z); auto; [lia| |lia|].
    + intros x. rewrite ev_pshift, Hp, plus_IZR. f_equal. ring.
    + rewrite minus_IZR, plus_IZR in *. rewrite (S_INR (S k)) in Ht. lra.
Qed.
Lemma check_sound r den h n d k : (0 < k)%nat -> (0 <= h)%Z -> (0 < d)%Z -> (1 <= n)%Z -> check r den h n d k = true ->
  forall q, 0 <= q <= 1 -> Rabs (ev r q) <= IZR n / IZR d * ev den q.
Proof.
  intros Hk Hh Hd Hn H q Hq. assert (HC : (0 < 2 ^ h)%Z) by (apply Z.pow_pos_nonneg; lia). unfold check in H. cbv zeta in H. set (K := (2 * Z.of_nat k)%Z) in *. apply andb_prop in H as [H H3]. apply andb_prop in H as [H1 H2]. apply Z.leb_le, IZR_le in H2. rewrite mult_IZR, <- INR_IZR_INZ in H2.
  assert (HK : (0 < K)%Z) by (unfold K; lia). assert (KR : 0 < IZR K) by (apply IZR_lt; auto). assert (DR : 0 < IZR d) by (apply IZR_lt; auto). assert (CR : 0 < IZR (2 ^ h)) by (apply IZR_lt; auto). assert (NR : 1 <= IZR n) by (apply IZR_le; auto).
  pose proof (cut_ev h r q Hh Hq) as Er. pose proof (cut_ev h den q Hh Hq) as Ed. set (r' := cut h r) in *. set (den' := cut h den) in *.
  generalize dependent (2 ^ h)%Z. intros C HC CR Er Ed.
  assert (Lr : length r' = length r) by (unfold r', cut; apply map_length). assert (Ld : length den' = length den) by (unfold den', cut; apply map_length).
  assert (NA : (0 <= d * K ^ Z.of_nat (length den))%Z) by (apply Z.mul_nonneg_nonneg; [lia|apply Z.pow_nonneg; lia]). assert (NB : (0 <= (n - 1) * K ^ Z.of_nat (length r))%Z) by (apply Z.mul_nonneg_nonneg; [lia|apply Z.pow_nonneg; lia]).
  pose proof (pieces_sound _ _ _ (pstretch K r') NA NB (pstretch_nonneg K den' HK H1) k _ 1%Z ltac:(lia) (fun x => ev_pshift 1 (pstretch K r') x) H3 (IZR K * q) Hk) as P.
  assert (Kk : IZR K = 2 * INR k) by (unfold K; rewrite mult_IZR, <- INR_IZR_INZ; reflexivity). specialize (P ltac:(simpl; rewrite <- Kk; pose proof (Rmult_le_compat_l (IZR K) q 1 ltac:(lra) ltac:(lra)); pose proof (Rmult_le_pos (IZR K) q ltac:(lra) ltac:(lra)); lra)).
  rewrite !mult_IZR, minus_IZR, <- !pow_IZR in P. pose proof (ev_pstretch K r' q) as Sr. pose proof (ev_pstretch K den' q) as Sd. rewrite Lr in Sr. rewrite Ld in Sd.
  set (er := ev (pstretch K r') (IZR K * q)) in *. set (ed := ev (pstretch K den') (IZR K * q)) in *.
  assert (Kr : 0 < IZR K ^ length r) by (apply pow_lt; auto). assert (Kd : 0 < IZR K ^ length den) by (apply pow_lt; auto). set (kr := IZR K ^ length r) in *. set (kd := IZR K ^ length den) in *.
  assert (F1 : er = kr * ev r' q / IZR K) by (rewrite <- Sr; field; lra). assert (F2 : ed = kd * ev den' q / IZR K) by (rewrite <- Sd; field; lra).
  assert (B1 : Rabs (ev r' q) * IZR d <= (IZR n - 1) * ev den' q).
  { rewrite F1, F2 in P. unfold Rdiv in P. rewrite !Rabs_mult, (Rabs_pos_eq kr), (Rabs_pos_eq (/ IZR K)) in P by (try (left; apply Rinv_0_lt_compat); lra). apply (Rmult_le_reg_r (kr * kd * / IZR K)); [repeat apply Rmult_lt_0_compat; auto; apply Rinv_0_lt_compat; auto|]. lra. }
  assert (D0 : IZR (nth 0 den' 0%Z) <= ev den' q). { destruct den' as [|c t]; cbn [nth ev]; [lra|]. cbn [forallb] in H1. apply andb_prop in H1 as [_ Ht]. pose proof (ev_mono t q q Ht ltac:(lra)) as [T _]. pose proof (Rmult_le_pos q _ (proj1 Hq) T). lra. }
  set (x := ev r' q) in *. set (y := ev den' q) in *. set (L := INR (length r)) in *. pose proof (pos_INR (length r)) as L0. fold L in L0.
  assert (Ax : Rabs (ev r q) <= IZR C * (Rabs x + L)). { apply Rabs_le. pose proof (Rle_abs x) as X1. pose proof (Rle_abs (- x)) as X2. rewrite Rabs_Ropp in X2. pose proof (Rmult_le_compat_l (IZR C) _ _ ltac:(lra) X1). pose proof (Rmult_le_compat_l (IZR C) _ _ ltac:(lra) X2). pose proof (Rmult_le_pos (IZR C) L ltac:(lra) L0). lra. }
  assert (B2 : (Rabs x + L) * IZR d <= IZR n * y) by lra. eapply Rle_trans; [exact Ax|]. apply (Rmult_le_reg_r (IZR d)); auto. replace (IZR n / IZR d * ev den q * IZR d) with (IZR n * ev den q) by (field; lra). pose proof (Rmult_le_compat_l (IZR C) _ _ ltac:(lra) B2) as B3. pose proof (Rmult_le_compat_l (IZR n) _ _ ltac:(lra) (proj1 Ed)). lra.
Qed.
(** a cheaper lower bound of a product *)
Definition plow (h1 h2 : Z) (a b : list Z) : list Z := pscal (2 ^ h1) (pscal (2 ^ h2) (pmul (cut h1 a) (cut h2 b))).
Lemma cut_nonneg h a : forallb (Z.leb 0) a = true -> forallb (Z.leb 0) (cut h a) = true.
Proof. induction a as [|c t IH]; cbn [cut map forallb]; auto. fold (cut h t). intros H. apply andb_prop in H as [Hc H]. rewrite (IH H), andb_true_r. apply Z.leb_le in Hc. apply Z.leb_le, Z.shiftr_nonneg, Hc. Qed.
Lemma plow_le h1 h2 a b q : (0 <= h1)%Z -> (0 <= h2)%Z -> forallb (Z.leb 0) a = true -> forallb (Z.leb 0) b = true -> 0 <= q <= 1 -> ev (plow h1 h2 a b) q <= ev a q * ev b q.
Proof.
  intros H1 H2 Ha Hb Hq. unfold plow. rewrite !ev_pscal, ev_pmul. pose proof (cut_ev h1 a q H1 Hq) as [A _]. pose proof (cut_ev h2 b q H2 Hq) as [B _].
  pose proof (ev_mono _ q q (cut_nonneg h1 a Ha) ltac:(lra)) as [A0 _]. pose proof (ev_mono _ q q (cut_nonneg h2 b Hb) ltac:(lra)) as [B0 _].
  assert (P1 : 0 < IZR (2 ^ h1)) by (apply IZR_lt, Z.pow_pos_nonneg; lia). assert (P2 : 0 < IZR (2 ^ h2)) by (apply IZR_lt, Z.pow_pos_nonneg; lia).
  replace (IZR (2 ^ h1) * (IZR (2 ^ h2) * (ev (cut h1 a) q * ev (cut h2 b) q))) with (IZR (2 ^ h1) * ev (cut h1 a) q * (IZR (2 ^ h2) * ev (cut h2 b) q)) by ring. apply Rmult_le_compat; auto; apply Rmult_le_pos; lra.
Qed.
(** to reach other intervals: [p(Qy)] *)
Fixpoint pscale (Q f : Z) (a : list Z) : list Z := match a with [] => [] | c :: t => (c * f)%Z :: pscale Q (f * Q) t end.
Lemma ev_pscale Q a y : forall f, ev (pscale Q f a) y = IZR f * ev a (IZR Q * y).
Proof. induction a as [|c t IH]; intros f; cbn [pscale ev]; [ring|]. rewrite IH, !mult_IZR. ring. Qed.
