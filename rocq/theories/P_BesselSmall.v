(** The rational approximations of the Bessel functions below 5. *)
From Coq Require Import Reals List ZArith Lia Lra Bool.
From Coquelicot Require Import Coquelicot.
From Verif Require Import Base_R M_Bessel S_Bessel P_PolyZ P_BesselSeries.
Import ListNotations.
Local Open Scope R_scope.

Definition S20 : R := 100000000000000000000.
Lemma n40 : IZR (- 10 ^ 40) = - (S20 * S20).
Proof. unfold S20. rewrite <- mult_IZR, <- opp_IZR. apply f_equal. vm_compute. reflexivity. Qed.
Lemma p40 : IZR (10 ^ 40) = S20 * S20.
Proof. unfold S20. rewrite <- mult_IZR. apply f_equal. vm_compute. reflexivity. Qed.
Lemma p16 : IZR (10 ^ 16) = 10 ^ 16.
Proof. exact (eq_sym (pow_IZR 10 16)). Qed.
Lemma p17 : IZR (10 ^ 17) = 10 ^ 17.
Proof. exact (eq_sym (pow_IZR 10 17)). Qed.
Lemma d16 : 100 / IZR (10 ^ 18) = / IZR (10 ^ 16).
Proof. replace (10 ^ 18)%Z with (100 * 10 ^ 16)%Z by (vm_compute; reflexivity). rewrite mult_IZR, p16. field. Qed.
Lemma d17 : 100 / IZR (10 ^ 19) = / IZR (10 ^ 17).
Proof. replace (10 ^ 19)%Z with (100 * 10 ^ 17)%Z by (vm_compute; reflexivity). rewrite mult_IZR, p17. field. Qed.
Lemma p2519 : 25 ^ 19 = 363797880709171295166015625.
Proof. rewrite (pow_IZR 25 19). apply f_equal. vm_compute. reflexivity. Qed.
Lemma polyval_ev (s : R) (zs : list Z) x : polyval (rev (map (fun c => IZR c / s) zs)) x = ev zs x / s.
Proof.
  unfold polyval. rewrite <- fold_left_rev_right, rev_involutive. induction zs as [|c t IH]; simpl; [unfold Rdiv; ring|]. rewrite IH. unfold Rdiv. ring.
Qed.
Ltac coefs := cbn [map rev app]; repeat (apply f_equal2; [unfold S20; lra|]); reflexivity.
Definition rp0 : list Z := [970862251047306323952000000000000000; (-24924834436096771620400000000000000); 195617491946556577543000000000000; (-479443220978201773821000000000)]%Z.
Definition rq0 : list Z := [171086294081043136091000000000000000000; 3181219559432049433060000000000000000; 31051822985742258381400000000000000; 211277520115489217587000000000000; 1118555370453568348620000000000; 4844096583399620453050000000; 17378540167637468312300000; 49956314715265101721900; 100000000000000000000]%Z.
Definition za0 : list Z := [(-578318596294678452118); 100000000000000000000]%Z.
Definition zb0 : list Z := [(-3047126234366208639910); 100000000000000000000]%Z.
Definition tl0 : list Z := [2816838087944084125503921126295732224000000; (-704209521986021031375980281573933056000000); 44013095124126314460998767598370816000000; (-1222585975670175401694410211065856000000); 19102905869846490651475159547904000000; (-191029058698464906514751595479040000); 1326590685406006295241330524160000; (-6768319823500032118578216960000); 26438749310547000463196160000; (-81601078118972223651840000); 204002695297430559129600; (-421493172102129254400); 731758979343974400; (-1082483697254400); 1380719001600; (-1534132224); 1498176; (-1296); 1]%Z.
Definition den0 : Z := 2816838087944084125503921126295732224000000%Z.
Lemma rp0_eq : RP0 = rev (map (fun c => IZR c / S20) rp0).
Proof. unfold RP0, rp0. coefs. Qed.
Lemma rq0_eq : RQ0 = rev (map (fun c => IZR c / S20) rq0).
Proof. unfold RQ0, rq0. coefs. Qed.
Lemma za0_eq z : z - DR10 = ev za0 z / S20.
Proof. unfold za0, DR10, S20. cbn [ev]. lra. Qed.
Lemma zb0_eq z : z - DR20 = ev zb0 z / S20.
Proof. unfold zb0, DR20, S20. cbn [ev]. lra. Qed.
Lemma tl0_eq z : psum 0 0 19 z = ev tl0 z / IZR den0.
Proof.
  rewrite (chain_sum 0 (IZR den0) z tl0 0); [|vm_compute; reflexivity|].
  - change (length tl0) with 19%nat. field. apply not_0_IZR. discriminate.
  - intros c t E. unfold tl0 in E. injection E as <- _. unfold bc, den0. simpl. field.
Qed.
Definition rem0 : list Z := padd (pscal (1 * den0) (pmul rp0 (pmul za0 zb0))) (pscal (- 10 ^ 40) (pmul rq0 tl0)).
Lemma rem0_small z : 0 <= z <= 25 -> Rabs (ev rem0 z) <= IZR (10 ^ 40 * den0) / IZR (10 ^ 16) * ev rq0 z.
Proof.
  intros Hz. pose proof (check_sound (pscale 25 1 rem0) (pscale 25 1 (pscal (10 ^ 40 * den0) rq0)) 335 100 (10 ^ 18) 25 ltac:(lia) ltac:(lia) ltac:(lia) ltac:(lia) ltac:(vm_compute; reflexivity) (z / 25) ltac:(lra)) as H.
  rewrite !ev_pscale, ev_pscal, !Rmult_1_l in H. replace (25 * (z / 25)) with z in H by field. eapply Rle_trans; [exact H|]. right. rewrite d16. unfold Rdiv. ring.
Qed.
Definition rp1 : list Z := [368295732863852883286000000000000000; (-7274942452218182760150000000000000); 45222829799819403432300000000000; (-89997122570555939822400000000)]%Z.
Definition rq1 : list Z := [532278620332680085395000000000000000000; 8952223361846273380780000000000000000; 78436960787623585489400000000000000; 474914122079991414898000000000000; 2215115954797924996750000000000; 8351467914319492530370000000; 25698725675774883038300000; 62083647811805433547600; 100000000000000000000]%Z.
Definition za1 : list Z := [(-1468197064212389325720); 100000000000000000000]%Z.
Definition zb1 : list Z := [(-4921845632169460367030); 100000000000000000000]%Z.
Definition tl1 : list Z := [53519923670937598384574501399618912256000000; (-6689990458867199798071812674952364032000000); 278749602452799991586325528123015168000000; (-5807283384433333158048448502562816000000); 72591042305416664475605606282035200000; (-604925352545138870630046719016960000); 3600746146102017087083611422720000; (-16074759580812576281623265280000); 55815137433377000977858560000; (-155042048426047224938496000); 352368291877380056678400; (-667364189161704652800); 1069493892887347200; (-1469085017702400); 1748910735360; (-1821782016); 1674432; (-1368); 1]%Z.
Definition den1 : Z := 53519923670937598384574501399618912256000000%Z.
Lemma rp1_eq : RP1 = rev (map (fun c => IZR c / S20) rp1).
Proof. unfold RP1, rp1. coefs. Qed.
Lemma rq1_eq : RQ1 = rev (map (fun c => IZR c / S20) rq1).
Proof. unfold RQ1, rq1. coefs. Qed.
Lemma za1_eq z : z - Z1 = ev za1 z / S20.
Proof. unfold za1, Z1, S20. cbn [ev]. lra. Qed.
Lemma zb1_eq z : z - Z2 = ev zb1 z / S20.
Proof. unfold zb1, Z2, S20. cbn [ev]. lra. Qed.
Lemma tl1_eq z : psum 1 0 19 z = ev tl1 z / IZR den1.
Proof.
  rewrite (chain_sum 1 (IZR den1) z tl1 0); [|vm_compute; reflexivity|].
  - change (length tl1) with 19%nat. field. apply not_0_IZR. discriminate.
  - intros c t E. unfold tl1 in E. injection E as <- _. unfold bc, den1. simpl. field.
Qed.
Definition rem1 : list Z := padd (pscal (2 * den1) (pmul rp1 (pmul za1 zb1))) (pscal (- 10 ^ 40) (pmul rq1 tl1)).
Lemma rem1_small z : 0 <= z <= 25 -> Rabs (ev rem1 z) <= IZR (10 ^ 40 * den1) / IZR (10 ^ 17) * ev rq1 z.
Proof.
  intros Hz. pose proof (check_sound (pscale 25 1 rem1) (pscale 25 1 (pscal (10 ^ 40 * den1) rq1)) 335 100 (10 ^ 19) 25 ltac:(lia) ltac:(lia) ltac:(lia) ltac:(lia) ltac:(vm_compute; reflexivity) (z / 25) ltac:(lra)) as H.
  rewrite !ev_pscale, ev_pscal, !Rmult_1_l in H. replace (25 * (z / 25)) with z in H by field. eapply Rle_trans; [exact H|]. right. rewrite d17. unfold Rdiv. ring.
Qed.

Fixpoint factZ (k : nat) : Z := match k with O => 1%Z | S k => (Z.of_nat (S k) * factZ k)%Z end.
Lemma factZ_eq k : INR (fact k) = IZR (factZ k).
Proof. induction k as [|k IH]; [reflexivity|]. rewrite fact_simpl, mult_INR, IH. cbn [factZ]. rewrite mult_IZR, <- INR_IZR_INZ. reflexivity. Qed.
Lemma bc_abs n k : Rabs (bc n k) = / IZR (4 ^ Z.of_nat k * factZ k * factZ (k + n)).
Proof.
  unfold bc, Rdiv. rewrite Rabs_mult, pow_1_abs, Rmult_1_l, Rabs_pos_eq by (left; apply Rinv_0_lt_compat, bc_pos). rewrite !mult_IZR, !factZ_eq, <- pow_IZR. reflexivity.
Qed.
Lemma ev_pos c t z : (0 < c)%Z -> forallb (Z.leb 0) t = true -> 0 <= z -> 0 < ev (c :: t) z.
Proof. intros Hc Ht Hz. cbn [ev]. apply IZR_lt in Hc. pose proof (ev_mono t z z Ht ltac:(lra)) as [E _]. pose proof (Rmult_le_pos z _ Hz E). lra. Qed.
Lemma rq0_pos z : 0 <= z -> 0 < ev rq0 z.
Proof. intros Hz. unfold rq0. apply ev_pos; [lia|reflexivity|auto]. Qed.
Lemma rq1_pos z : 0 <= z -> 0 < ev rq1 z.
Proof. intros Hz. unfold rq1. apply ev_pos; [lia|reflexivity|auto]. Qed.
Lemma S20_pos : 0 < S20.
Proof. unfold S20. lra. Qed.

Definition rat0 (z : R) : R := (z - DR10) * (z - DR20) * polyval RP0 z / polyval RQ0 z.
Definition rat1 (z : R) : R := polyval RP1 z / polyval RQ1 z * (z - Z1) * (z - Z2).
Lemma quotient_close p q t den S (eps : R) : 0 < q -> 0 < den -> 0 < S -> Rabs (den * p - S * S * (q * t)) <= S * S * den * eps * q -> Rabs (p / S / S / S / (q / S) - t / den) <= eps.
Proof.
  intros Hq Hd HS H. replace (p / S / S / S / (q / S) - t / den) with ((den * p - S * S * (q * t)) / (S * S * den * q)) by (field; lra).
  assert (P : 0 < S * S * den * q) by (repeat apply Rmult_lt_0_compat; auto). unfold Rdiv. rewrite Rabs_mult, Rabs_inv, (Rabs_pos_eq (S * S * den * q)) by lra. apply (Rmult_le_reg_r (S * S * den * q)); auto. rewrite Rmult_assoc, Rinv_l by lra. nra.
Qed.
Lemma rat0_close z : 0 <= z <= 25 -> Rabs (rat0 z - G 0 z) <= 1.1e-16.
Proof.
  intros Hz. assert (A : Rabs (rat0 z - psum 0 0 19 z) <= / 10 ^ 16).
  { unfold rat0. rewrite rp0_eq, rq0_eq, !polyval_ev, za0_eq, zb0_eq, tl0_eq. pose proof S20_pos as HS. pose proof (rq0_pos z ltac:(lra)) as Hq.
    replace (ev za0 z / S20 * (ev zb0 z / S20) * (ev rp0 z / S20) / (ev rq0 z / S20)) with ((ev rp0 z * (ev za0 z * ev zb0 z)) / S20 / S20 / S20 / (ev rq0 z / S20)) by (field; lra).
    apply quotient_close; auto; [unfold den0; lra|]. pose proof (rem0_small z Hz) as H. unfold rem0 in H. rewrite ev_padd, !ev_pscal, !ev_pmul in H.
    rewrite n40 in H.
    replace (IZR (1 * den0)) with (IZR den0) in H by reflexivity. replace (IZR (10 ^ 40 * den0) / IZR (10 ^ 16)) with (S20 * S20 * IZR den0 * / 10 ^ 16) in H by (rewrite mult_IZR, p40, p16; reflexivity).
    eapply Rle_trans; [|exact H]. right. f_equal. ring. }
  assert (B : Rabs (G 0 z - psum 0 0 19 z) <= 1e-17).
  { eapply Rle_trans; [apply G_truncated; simpl; lra|]. rewrite bc_abs. apply Rle_trans with (2 * / IZR (4 ^ Z.of_nat 19 * factZ 19 * factZ (19 + 0)) * 25 ^ 19).
    - apply Rmult_le_compat_l; [|apply pow_incr; lra]. apply Rmult_le_pos; [lra|]. left; apply Rinv_0_lt_compat, IZR_lt. reflexivity.
    - let v := eval vm_compute in (4 ^ Z.of_nat 19 * factZ 19 * factZ (19 + 0))%Z in replace (4 ^ Z.of_nat 19 * factZ 19 * factZ (19 + 0))%Z with v by (vm_compute; reflexivity). rewrite p2519. lra. }
  replace (rat0 z - G 0 z) with (rat0 z - psum 0 0 19 z - (G 0 z - psum 0 0 19 z)) by ring. eapply Rle_trans; [apply Rabs_triang|]. rewrite Rabs_Ropp. replace (/ 10 ^ 16) with 1e-16 in A by (simpl; lra). lra.
Qed.
Lemma rat1_close z : 0 <= z <= 25 -> Rabs (rat1 z - G 1 z / 2) <= 1.1e-17.
Proof.
  intros Hz. assert (A : Rabs (2 * rat1 z - psum 1 0 19 z) <= / 10 ^ 17).
  { unfold rat1. rewrite rp1_eq, rq1_eq, !polyval_ev, za1_eq, zb1_eq, tl1_eq. pose proof S20_pos as HS. pose proof (rq1_pos z ltac:(lra)) as Hq.
    replace (2 * (ev rp1 z / S20 / (ev rq1 z / S20) * (ev za1 z / S20) * (ev zb1 z / S20))) with ((2 * (ev rp1 z * (ev za1 z * ev zb1 z))) / S20 / S20 / S20 / (ev rq1 z / S20)) by (field; lra).
    apply quotient_close; auto; [unfold den1; lra|]. pose proof (rem1_small z Hz) as H. unfold rem1 in H. rewrite ev_padd, !ev_pscal, !ev_pmul in H.
    rewrite n40 in H.
    rewrite (mult_IZR 2 den1) in H. replace (IZR (10 ^ 40 * den1) / IZR (10 ^ 17)) with (S20 * S20 * IZR den1 * / 10 ^ 17) in H by (rewrite mult_IZR, p40, p17; reflexivity).
    eapply Rle_trans; [|exact H]. right. f_equal. ring. }
  assert (B : Rabs (G 1 z - psum 1 0 19 z) <= 1e-18).
  { eapply Rle_trans; [apply G_truncated; simpl; lra|]. rewrite bc_abs. apply Rle_trans with (2 * / IZR (4 ^ Z.of_nat 19 * factZ 19 * factZ (19 + 1)) * 25 ^ 19).
    - apply Rmult_le_compat_l; [|apply pow_incr; lra]. apply Rmult_le_pos; [lra|]. left; apply Rinv_0_lt_compat, IZR_lt. reflexivity.
    - let v := eval vm_compute in (4 ^ Z.of_nat 19 * factZ 19 * factZ (19 + 1))%Z in replace (4 ^ Z.of_nat 19 * factZ 19 * factZ (19 + 1))%Z with v by (vm_compute; reflexivity). rewrite p2519. lra. }
  replace (rat1 z - G 1 z / 2) with ((2 * rat1 z - psum 1 0 19 z) / 2 - (G 1 z - psum 1 0 19 z) / 2) by field. eapply Rle_trans; [apply Rabs_triang|]. rewrite Rabs_Ropp. unfold Rdiv at 1 2. rewrite !Rabs_mult, (Rabs_pos_eq (/ 2)) by lra. replace (/ 10 ^ 17) with 1e-17 in A by (simpl; lra). lra.
Qed.
Lemma small0 x : 0 <= x < 5 -> Rabs (j0_small x - besselJ 0 x) <= 1.1e-16.
Proof.
  intros Hx. unfold j0_small. cbv zeta. rewrite besselJ_G, pow_O, Rmult_1_l. destruct (Rltb_spec x 1e-5) as [H|H].
  - assert (Hz : 0 <= x ^ 2 <= 1e-10) by nra. pose proof (G_truncated 0 2 (x ^ 2) ltac:(simpl; nra)) as T. cbn [psum] in T. rewrite bc_abs in T.
    replace (bc 0 0) with 1 in T by (unfold bc; simpl; field). replace (bc 0 1) with (- 1 / 4) in T by (unfold bc; simpl; field). change (IZR (4 ^ Z.of_nat 2 * factZ 2 * factZ (2 + 0))) with 64 in T.
    replace (1 - x * x / 4 - G 0 (x ^ 2)) with (- (G 0 (x ^ 2) - (1 + x ^ 2 * (-1 / 4 + x ^ 2 * 0)))) by (simpl; field). rewrite Rabs_Ropp. eapply Rle_trans; [exact T|]. nra.
  - pose proof (rat0_close (x ^ 2) ltac:(nra)) as T. unfold rat0 in T. replace (x ^ 2) with (x * x) in * by ring. exact T.
Qed.
Lemma small1 x : 0 <= x < 5 -> Rabs (j1_small x - besselJ 1 x) <= 1.1e-17 * x.
Proof.
  intros Hx. pose proof (rat1_close (x ^ 2) ltac:(nra)) as T. rewrite besselJ_G. unfold j1_small. cbv zeta. replace (polyval RP1 (x * x) / polyval RQ1 (x * x) * x * (x * x - Z1) * (x * x - Z2) - (x / 2) ^ 1 * G 1 (x ^ 2)) with (x * (rat1 (x ^ 2) - G 1 (x ^ 2) / 2)).
  - rewrite Rabs_mult, Rabs_pos_eq by lra. rewrite Rmult_comm. apply Rmult_le_compat_r; lra.
  - unfold rat1. replace (x ^ 2) with (x * x) by ring. simpl. field. pose proof (rq1_pos (x * x) ltac:(nra)). rewrite rq1_eq, polyval_ev. pose proof S20_pos. apply Rgt_not_eq, Rdiv_lt_0_compat; auto.
Qed.
