(** The asymptotic approximations of the Bessel functions from 5 on. *)
From Coq Require Import Reals List ZArith Lia Lra Bool.
From Coquelicot Require Import Coquelicot.
From Verif Require Import Base_R M_Bessel S_Bessel P_PolyZ P_BesselSeries P_BesselSmall P_BesselOde P_SinZ.
Import ListNotations.
Local Open Scope R_scope.

(** ** derivatives of quotients of integer polynomials *)
Section Quotient.
Variables P Q : list Z.
Definition wr1 : list Z := padd (pmul (pder P) Q) (pscal (-1) (pmul P (pder Q))).
Definition wr2 : list Z := let W := wr1 in padd (pmul (pder W) Q) (pscal (-2) (pmul W (pder Q))).
Definition quo (q : R) : R := ev P q / ev Q q.
Definition quo1 (q : R) : R := ev wr1 q / ev Q q ^ 2.
Definition quo2 (q : R) : R := ev wr2 q / ev Q q ^ 3.
Lemma quo_derive (q : R) : ev Q q <> 0 -> is_derive quo q (quo1 q).
Proof.
  intros H. unfold quo, quo1, wr1. pose proof (ev_pder P q) as DP. pose proof (ev_pder Q q) as DQ. auto_derive.
  - repeat split; auto; eexists; eassumption.
  - replace (Derive (fun x => ev P x) q) with (ev (pder P) q) by (symmetry; apply is_derive_unique; exact DP). replace (Derive (fun x => ev Q x) q) with (ev (pder Q) q) by (symmetry; apply is_derive_unique; exact DQ).
    rewrite ev_padd, ev_pscal, !ev_pmul. field. auto.
Qed.
Lemma quo1_derive (q : R) : ev Q q <> 0 -> is_derive quo1 q (quo2 q).
Proof.
  intros H. unfold quo1, quo2, wr2. cbv zeta. pose proof (ev_pder wr1 q) as DP. pose proof (ev_pder Q q) as DQ. generalize dependent wr1. intros W DW. auto_derive.
  - repeat split; try (eexists; eassumption). simpl. rewrite Rmult_1_r. apply Rmult_integral_contrapositive_currified; auto.
  - replace (Derive (fun x => ev W x) q) with (ev (pder W) q) by (symmetry; apply is_derive_unique; exact DW). replace (Derive (fun x => ev Q x) q) with (ev (pder Q) q) by (symmetry; apply is_derive_unique; exact DQ).
    rewrite ev_padd, ev_pscal, !ev_pmul. field. auto.
Qed.
End Quotient.

(** ** the residual polynomials; [m4 = 1 - 4 nu^2] *)
Definition X (a : list Z) : list Z := 0%Z :: a.
Definition sq (a : list Z) := pmul a a.
Definition cu (a : list Z) := pmul a (sq a).
Definition rr1 (P Q N M : list Z) (m4 : Z) : list Z :=
  let W := wr1 P Q in
  padd (pmul (sq M) (padd (pscal 16 (X (X (wr2 P Q)))) (pmul Q (padd (pscal 24 (X W)) (pscal m4 (pmul P Q))))))
       (pmul (cu Q) (pscal 40 (padd (pmul N M) (pscal 2 (X (wr1 N M)))))).
Definition dd1 (Q M : list Z) : list Z := pscal 4 (plow 160 80 (cu Q) (sq M)).
Definition rr2 (P Q N M : list Z) (m4 : Z) : list Z :=
  let W := wr1 N M in
  padd (pmul (sq Q) (padd (pscal 16 (X (X (wr2 N M)))) (pmul M (padd (pscal 40 (X W)) (pscal (8 + m4) (pmul N M))))))
       (pmul (cu M) (pscal (-80) (wr1 P Q))).
Definition dd2 (Q M : list Z) : list Z := pscal 4 (plow 160 80 (cu M) (sq Q)).
Lemma ev_X a x : ev (X a) x = x * ev a x.
Proof. unfold X. cbn [ev]. ring. Qed.
Section Bounds.
Variables (P Q N M : list Z) (m4 : Z) (nu2 : R) (n1 n2 d : Z).
Hypothesis Hm : IZR m4 = 1 - 4 * nu2.
Hypothesis HQ : forall q, 0 <= q -> 0 < ev Q q. Hypothesis HM : forall q, 0 <= q -> 0 < ev M q.
Hypothesis Hn1 : (1 <= n1)%Z. Hypothesis Hn2 : (1 <= n2)%Z. Hypothesis Hd : (0 < d)%Z.
Lemma rr1_bound : forallb (Z.leb 0) (cu Q) = true -> forallb (Z.leb 0) (sq M) = true -> check (rr1 P Q N M m4) (dd1 Q M) 352 n1 d 50 = true -> forall q, 0 < q <= 1 -> Rabs (res1 (quo P Q) (quo1 P Q) (quo2 P Q) (quo N M) (quo1 N M) nu2 q) <= IZR n1 / IZR d.
Proof.
  intros C1 C2 C q Hq. pose proof (check_sound (rr1 P Q N M m4) (dd1 Q M) 352 n1 d 50 ltac:(lia) ltac:(lia) Hd Hn1 C q ltac:(lra)) as B.
  pose proof (HQ q ltac:(lra)) as PQ. pose proof (HM q ltac:(lra)) as PM. pose proof (plow_le 160 80 (cu Q) (sq M) q ltac:(lia) ltac:(lia) C1 C2 ltac:(lra)) as L.
  set (D := 4 * (ev (cu Q) q * ev (sq M) q)). assert (B' : Rabs (ev (rr1 P Q N M m4) q) <= IZR n1 / IZR d * D).
  { eapply Rle_trans; [exact B|]. apply Rmult_le_compat_l; [apply Rmult_le_pos; [apply IZR_le; lia|left; apply Rinv_0_lt_compat, IZR_lt, Hd]|]. unfold dd1. rewrite ev_pscal. unfold D. lra. }
  assert (Pd : 0 < D). { unfold D, cu, sq. rewrite !ev_pmul. repeat apply Rmult_lt_0_compat; lra. }
  assert (E : res1 (quo P Q) (quo1 P Q) (quo2 P Q) (quo N M) (quo1 N M) nu2 q = ev (rr1 P Q N M m4) q / D).
  { unfold res1, D; cbv zeta; unfold quo, quo1, quo2, rr1, cu, sq. generalize (wr1 P Q) (wr2 P Q) (wr1 N M) (wr2 N M). intros w1 w2 w3 w4. cbv zeta. repeat first [rewrite ev_padd|rewrite ev_pscal|rewrite ev_X|rewrite ev_pmul]. rewrite Hm. field. split; lra. }
  rewrite E. unfold Rdiv at 1. rewrite Rabs_mult, Rabs_inv, (Rabs_pos_eq D) by lra. apply (Rmult_le_reg_r D); auto. rewrite Rmult_assoc, Rinv_l by lra. lra.
Qed.
Lemma rr2_bound : forallb (Z.leb 0) (cu M) = true -> forallb (Z.leb 0) (sq Q) = true -> check (rr2 P Q N M m4) (dd2 Q M) 358 n2 d 50 = true -> forall q, 0 < q <= 1 -> Rabs (res2 (quo1 P Q) (quo N M) (quo1 N M) (quo2 N M) nu2 q) <= IZR n2 / IZR d.
Proof.
  intros C1 C2 C q Hq. pose proof (check_sound (rr2 P Q N M m4) (dd2 Q M) 358 n2 d 50 ltac:(lia) ltac:(lia) Hd Hn2 C q ltac:(lra)) as B.
  pose proof (HQ q ltac:(lra)) as PQ. pose proof (HM q ltac:(lra)) as PM. pose proof (plow_le 160 80 (cu M) (sq Q) q ltac:(lia) ltac:(lia) C1 C2 ltac:(lra)) as L.
  set (D := 4 * (ev (cu M) q * ev (sq Q) q)). assert (B' : Rabs (ev (rr2 P Q N M m4) q) <= IZR n2 / IZR d * D).
  { eapply Rle_trans; [exact B|]. apply Rmult_le_compat_l; [apply Rmult_le_pos; [apply IZR_le; lia|left; apply Rinv_0_lt_compat, IZR_lt, Hd]|]. unfold dd2. rewrite ev_pscal. unfold D. lra. }
  assert (Pd : 0 < D). { unfold D, cu, sq. rewrite !ev_pmul. repeat apply Rmult_lt_0_compat; lra. }
  assert (E : res2 (quo1 P Q) (quo N M) (quo1 N M) (quo2 N M) nu2 q = ev (rr2 P Q N M m4) q / D).
  { unfold res2, D; cbv zeta; unfold quo, quo1, quo2, rr2, cu, sq. generalize (wr1 P Q) (wr2 P Q) (wr1 N M) (wr2 N M). intros w1 w2 w3 w4. cbv zeta. repeat first [rewrite ev_padd|rewrite ev_pscal|rewrite ev_X|rewrite ev_pmul]. rewrite plus_IZR, Hm. field. split; lra. }
  rewrite E. unfold Rdiv at 1. rewrite Rabs_mult, Rabs_inv, (Rabs_pos_eq D) by lra. apply (Rmult_le_reg_r D); auto. rewrite Rmult_assoc, Rinv_l by lra. lra.
Qed.
End Bounds.

(** ** the tables *)
Definition pp0 : list Z := [999999999999999997821000; 5303240382353948921830000; 8747165001998170119410000; 5447250030587687750900000; 1239533716464142993880000; 82835239210744079980300; 796936729297347051624]%Z.
Definition pq0 : list Z := [1000000000000000002180000; 5306052882353946176180000; 8761908832370695942320000; 5470977403304171051820000; 1253527439010589535370000; 85628847435447443142800; 924408810558863637013]%Z.
Definition qp0 : list Z := [(-6050143506007284811860000); (-51410532676659933022000000); (-147077505154951170175000000); (-177681167980488050595000000); (-93206015212376823136900000); (-19553954425773597238500000); (-1282527186705093185120000); (-11366383889846914993100)]%Z.
Definition qq0 : list Z := [242005740240291393179000000; 2062093316603278474170000000; 5930727011873169848270000000; 7240467741956524781890000000; 3882401836054016096830000000; 856430025976980587198000000; 64317825611817802318400000; 1000000000000000000000000]%Z.
Definition pp1 : list Z := [1000000000000000002540000; 5214515986823615040630000; 8424045901417724209270000; 5112079511468076448180000; 1127196081296849251920000; 73139705694091757043600; 762125616208173112003]%Z.
Definition pq1 : list Z := [999999999999999997461000; 5209828486823618216190000; 8399855543276041597570000; 5073863861286014885570000; 1105142326340616969260000; 68845590875449540408200; 571323128072548699714]%Z.
Definition qp1 : list Z := [25207020585802371978400000; 211688757100572135698000000; 597489612400613639965000000; 710856304998926107277000000; 366779609360150777800000000; 75823828413254528381800000; 4982138729512334494200000; 51086259475017662163500]%Z.
Definition qq1 : list Z := [336093607810698293419000000; 2826192785176390966000000000; 7997041604473506836500000000; 9562318924047561707950000000; 4986410583376536076510000000; 1056448860382628163510000000; 74237327703567514994300000; 1000000000000000000000000]%Z.
Definition S24 : R := 1000000000000000000000000.
Ltac coefs24 := cbn [map rev app]; repeat (apply f_equal2; [unfold S24; lra|]); reflexivity.
Lemma pp0_eq : PP0 = rev (map (fun c => IZR c / S24) pp0). Proof. unfold PP0, pp0. coefs24. Qed.
Lemma pq0_eq : PQ0 = rev (map (fun c => IZR c / S24) pq0). Proof. unfold PQ0, pq0. coefs24. Qed.
Lemma qp0_eq : QP0 = rev (map (fun c => IZR c / S24) qp0). Proof. unfold QP0, qp0. coefs24. Qed.
Lemma qq0_eq : QQ0 = rev (map (fun c => IZR c / S24) qq0). Proof. unfold QQ0, qq0. coefs24. Qed.
Lemma pp1_eq : PP1 = rev (map (fun c => IZR c / S24) pp1). Proof. unfold PP1, pp1. coefs24. Qed.
Lemma pq1_eq : PQ1 = rev (map (fun c => IZR c / S24) pq1). Proof. unfold PQ1, pq1. coefs24. Qed.
Lemma qp1_eq : QP1 = rev (map (fun c => IZR c / S24) qp1). Proof. unfold QP1, qp1. coefs24. Qed.
Lemma qq1_eq : QQ1 = rev (map (fun c => IZR c / S24) qq1). Proof. unfold QQ1, qq1. coefs24. Qed.
Lemma pq0_pos z : 0 <= z -> 0 < ev pq0 z. Proof. intros Hz. unfold pq0. apply ev_pos; [lia|reflexivity|auto]. Qed.
Lemma qq0_pos z : 0 <= z -> 0 < ev qq0 z. Proof. intros Hz. unfold qq0. apply ev_pos; [lia|reflexivity|auto]. Qed.
Lemma pq1_pos z : 0 <= z -> 0 < ev pq1 z. Proof. intros Hz. unfold pq1. apply ev_pos; [lia|reflexivity|auto]. Qed.
Lemma qq1_pos z : 0 <= z -> 0 < ev qq1 z. Proof. intros Hz. unfold qq1. apply ev_pos; [lia|reflexivity|auto]. Qed.

(** ** the values at 5 *)
Definition near (x c w : R) : Prop := Rabs (x - c) <= w.
Definition frac_check (n d c w : Z) : bool := ((0 <? d) && (Z.abs (n * 100000000000000000000 - c * d) <=? w * d))%Z.
Lemma frac_near n d c w : frac_check n d c w = true -> near (IZR n / IZR d) (IZR c / S20) (IZR w / S20).
Proof.
  unfold frac_check. intros H. apply andb_prop in H as [Hd H]. apply Z.ltb_lt, IZR_lt in Hd. apply Z.leb_le, IZR_le in H. rewrite abs_IZR, minus_IZR, !mult_IZR in H. fold S20 in H. unfold near. pose proof S20_pos as HS.
  replace (IZR n / IZR d - IZR c / S20) with ((IZR n * S20 - IZR c * IZR d) * / (IZR d * S20)) by (field; lra). assert (P : 0 < IZR d * S20) by (apply Rmult_lt_0_compat; auto). rewrite Rabs_mult, (Rabs_pos_eq (/ _)) by (left; apply Rinv_0_lt_compat; auto).
  apply (Rmult_le_reg_r (IZR d * S20)); auto. rewrite Rmult_assoc, Rinv_l, Rmult_1_r by lra. replace (IZR w / S20 * (IZR d * S20)) with (IZR w * IZR d) by (field; lra). exact H.
Qed.
Lemma quo_near P Q c w : frac_check (evZ P 1) (evZ Q 1) c w = true -> near (quo P Q 1) (IZR c / S20) (IZR w / S20).
Proof. intros H. apply frac_near in H. unfold quo. rewrite !ev_IZR. exact H. Qed.
Lemma quo1_near P Q c w : frac_check (evZ (wr1 P Q) 1) (evZ Q 1 * evZ Q 1) c w = true -> near (quo1 P Q 1) (IZR c / S20) (IZR w / S20).
Proof. intros H. apply frac_near in H. unfold quo1. rewrite !ev_IZR. rewrite mult_IZR in H. replace (IZR (evZ Q 1) ^ 2) with (IZR (evZ Q 1) * IZR (evZ Q 1)) by ring. exact H. Qed.
Lemma near_mul x y c d u v : near x c u -> near y d v -> Rabs c <= 3 -> Rabs d <= 3 -> v <= 1 -> near (x * y) (c * d) (4 * u + 3 * v).
Proof.
  unfold near. intros H1 H2 Hc Hd Hv. replace (x * y - c * d) with ((x - c) * y + c * (y - d)) by ring. eapply Rle_trans; [apply Rabs_triang|]. rewrite !Rabs_mult.
  assert (Rabs y <= 4). { replace y with ((y - d) + d) by ring. eapply Rle_trans; [apply Rabs_triang|]. lra. }
  apply Rplus_le_compat; [rewrite (Rmult_comm 4)|]; apply Rmult_le_compat; auto using Rabs_pos.
Qed.
Lemma near_add x y c d u v : near x c u -> near y d v -> near (x + y) (c + d) (u + v).
Proof. unfold near. intros H1 H2. replace (x + y - (c + d)) with ((x - c) + (y - d)) by ring. eapply Rle_trans; [apply Rabs_triang|]. lra. Qed.
Lemma near_sub x y c d u v : near x c u -> near y d v -> near (x - y) (c - d) (u + v).
Proof. unfold near. intros H1 H2. replace (x - y - (c - d)) with ((x - c) + - (y - d)) by ring. eapply Rle_trans; [apply Rabs_triang|]. rewrite Rabs_Ropp. lra. Qed.
Lemma near_scal k x c u : near x c u -> near (k * x) (k * c) (Rabs k * u).
Proof. unfold near. intros H. replace (k * x - k * c) with (k * (x - c)) by ring. rewrite Rabs_mult. apply Rmult_le_compat_l; auto using Rabs_pos. Qed.
Lemma near_shift x c d u v : near x c u -> Rabs (c - d) <= v -> near x d (u + v).
Proof. unfold near. intros H1 H2. replace (x - d) with ((x - c) + (c - d)) by ring. eapply Rle_trans; [apply Rabs_triang|]. lra. Qed.
Lemma trig_near t s w c d : near (sin (t / 2)) s (1 / S20) -> near (sin (t / 4)) w (1 / S20) -> Rabs s <= 1 -> Rabs w <= 1 ->
  Rabs (1 - 2 * (s * s) - c) <= 1e-19 -> Rabs (2 * (s * (1 - 2 * (w * w))) - d) <= 1e-19 -> near (cos t) c 3e-19 /\ near (sin t) d 2e-18.
Proof.
  intros Hs Hw As Aw Hc Hd. assert (C : cos t = 1 - 2 * (sin (t / 2) * sin (t / 2))). { replace t with (2 * (t / 2)) at 1 by field. rewrite cos_2a_sin. ring. }
  assert (C2 : cos (t / 2) = 1 - 2 * (sin (t / 4) * sin (t / 4))). { replace (t / 2) with (2 * (t / 4)) by field. rewrite cos_2a_sin. ring. }
  assert (Sn : sin t = 2 * (sin (t / 2) * cos (t / 2))). { replace t with (2 * (t / 2)) at 1 by field. rewrite sin_2a. ring. }
  assert (S1 : 1 / S20 = 1e-20) by (unfold S20; lra). rewrite S1 in *.
  assert (N1 : near 1 1 0) by (unfold near; replace (1 - 1) with 0 by ring; rewrite Rabs_R0; lra).
  pose proof (near_mul _ _ _ _ _ _ Hs Hs ltac:(lra) ltac:(lra) ltac:(lra)) as Q. apply (near_scal 2) in Q. rewrite (Rabs_pos_eq 2) in Q by lra. pose proof (near_sub _ _ _ _ _ _ N1 Q) as Q1.
  pose proof (near_mul _ _ _ _ _ _ Hw Hw ltac:(lra) ltac:(lra) ltac:(lra)) as V. apply (near_scal 2) in V. rewrite (Rabs_pos_eq 2) in V by lra. pose proof (near_sub _ _ _ _ _ _ N1 V) as V1.
  assert (Aw2 : Rabs (1 - 2 * (w * w)) <= 3). { apply Rabs_le. apply Rabs_le_between in Aw. nra. }
  pose proof (near_mul _ _ _ _ _ _ Hs V1 ltac:(lra) Aw2 ltac:(lra)) as Z. apply (near_scal 2) in Z. rewrite (Rabs_pos_eq 2) in Z by lra.
  split. - rewrite C. pose proof (near_shift _ _ _ _ _ Q1 Hc) as F. unfold near in *. lra.
  - rewrite Sn, C2. pose proof (near_shift _ _ _ _ _ Z Hd) as F. unfold near in *. lra.
Qed.
Lemma s2_0 : near (sin ((5 - PIO4) / 2)) (85950055333066925706 / S20) (1 / S20).
Proof.
  replace ((5 - PIO4) / 2) with (421460183660255169038 / (2 * S20)) by (unfold PIO4, S20; lra). unfold S20. rewrite <- mult_IZR. apply (sin_check_sound 421460183660255169038 (2 * 100000000000000000000) 7 85950055333066925706 1 100000000000000000000); [lia|lia|lia|vm_compute; reflexivity].
Qed.
Lemma s4_0 : near (sin ((5 - PIO4) / 4)) (86923380477444228034 / S20) (1 / S20).
Proof.
  replace ((5 - PIO4) / 4) with (421460183660255169038 / (4 * S20)) by (unfold PIO4, S20; lra). unfold S20. rewrite <- mult_IZR. apply (sin_check_sound 421460183660255169038 (4 * 100000000000000000000) 7 86923380477444228034 1 100000000000000000000); [lia|lia|lia|vm_compute; reflexivity].
Qed.
Lemma a_0 : near (quo pp0 pq0 1) (99733998568317587858 / S20) (1 / S20).
Proof. apply quo_near. vm_compute. reflexivity. Qed.
Lemma a1_0 : near (quo1 pp0 pq0 1) ((-252810221004766156) / S20) (1 / S20).
Proof. apply quo1_near. vm_compute. reflexivity. Qed.
Lemma b_0 : near (quo qp0 qq0 1) ((-2447173723322635908) / S20) (1 / S20).
Proof. apply quo_near. vm_compute. reflexivity. Qed.
Lemma b1_0 : near (quo1 qp0 qq0 1) (48125063179162295 / S20) (1 / S20).
Proof. apply quo1_near. vm_compute. reflexivity. Qed.
Lemma cs_0 : near (cos (5 - PIO4)) ((-47748240235145325542) / S20) 3e-19 /\ near (sin (5 - PIO4)) ((-87864131216594004783) / S20) 2e-18.
Proof. apply trig_near with (85950055333066925706 / S20) (86923380477444228034 / S20); [exact s2_0|exact s4_0|unfold S20; apply Rabs_le; lra..]. Qed.
Lemma s2_1 : near (sin ((5 - THPIO4) / 2)) (96918556328649985928 / S20) (1 / S20).
Proof.
  replace ((5 - THPIO4) / 2) with (264380550980765507115 / (2 * S20)) by (unfold THPIO4, S20; lra). unfold S20. rewrite <- mult_IZR. apply (sin_check_sound 264380550980765507115 (2 * 100000000000000000000) 7 96918556328649985928 1 100000000000000000000); [lia|lia|lia|vm_compute; reflexivity].
Qed.
Lemma s4_1 : near (sin ((5 - THPIO4) / 4)) (61386815518443686595 / S20) (1 / S20).
Proof.
  replace ((5 - THPIO4) / 4) with (264380550980765507115 / (4 * S20)) by (unfold THPIO4, S20; lra). unfold S20. rewrite <- mult_IZR. apply (sin_check_sound 264380550980765507115 (4 * 100000000000000000000) 7 61386815518443686595 1 100000000000000000000); [lia|lia|lia|vm_compute; reflexivity].
Qed.
Lemma a_1 : near (quo pp1 pq1 1) (100448900660042712045 / S20) (1 / S20).
Proof. apply quo_near. vm_compute. reflexivity. Qed.
Lemma a1_1 : near (quo1 pp1 pq1 1) (431535743936030997 / S20) (1 / S20).
Proof. apply quo1_near. vm_compute. reflexivity. Qed.
Lemma b_1 : near (quo qp1 qq1 1) (7425102045107180127 / S20) (1 / S20).
Proof. apply quo_near. vm_compute. reflexivity. Qed.
Lemma b1_1 : near (quo1 qp1 qq1 1) ((-69020281963980104) / S20) (1 / S20).
Proof. apply quo1_near. vm_compute. reflexivity. Qed.
Lemma cs_1 : near (cos (5 - THPIO4)) ((-87864131216594004783) / S20) 3e-19 /\ near (sin (5 - THPIO4)) (47748240235145325542 / S20) 2e-18.
Proof. apply trig_near with (96918556328649985928 / S20) (61386815518443686595 / S20); [exact s2_1|exact s4_1|unfold S20; apply Rabs_le; lra..]. Qed.
Lemma J0_5 : near (besselJ 0 5) ((-17759677131433830435) / S20) 2e-17.
Proof.
  rewrite besselJ_G. replace (5 ^ 2) with 25 by ring. pose proof (G_truncated 0 19 25 ltac:(simpl; lra)) as T. rewrite tl0_eq, ev_IZR, bc_abs, p2519 in T.
  assert (F : near (IZR (evZ tl0 25) / IZR den0) ((-17759677131433830435) / S20) (20 / S20)) by (apply frac_near; vm_compute; reflexivity).
  assert (B : 2 * / IZR (4 ^ Z.of_nat 19 * factZ 19 * factZ (19 + 0)) * 363797880709171295166015625 <= 1e-17).
  { let v := eval vm_compute in (4 ^ Z.of_nat 19 * factZ 19 * factZ (19 + 0))%Z in replace (4 ^ Z.of_nat 19 * factZ 19 * factZ (19 + 0))%Z with v by (vm_compute; reflexivity). lra. }
  fold (near (G 0 25) (IZR (evZ tl0 25) / IZR den0) (2 * / IZR (4 ^ Z.of_nat 19 * factZ 19 * factZ (19 + 0)) * 363797880709171295166015625)) in T.
  assert (T' : near (G 0 25) ((-17759677131433830435) / S20) 1.1e-17). { pose proof (near_shift _ _ _ _ _ T F) as U. unfold near in *. replace (20 / S20) with 2e-19 in U by (unfold S20; lra). lra. }
  replace ((5 / 2) ^ 0 * G 0 25) with (1 * G 0 25) by (simpl; lra). apply (near_scal (1)) in T'. rewrite (Rabs_pos_eq (1)) in T' by lra. unfold near in *. replace (1 * ((-17759677131433830435) / S20)) with ((-17759677131433830435) / S20) in T' by lra. lra.
Qed.
Lemma J1_5 : near (besselJ 1 5) ((-32757913759146522205) / S20) 3e-17.
Proof.
  rewrite besselJ_G. replace (5 ^ 2) with 25 by ring. pose proof (G_truncated 1 19 25 ltac:(simpl; lra)) as T. rewrite tl1_eq, ev_IZR, bc_abs, p2519 in T.
  assert (F : near (IZR (evZ tl1 25) / IZR den1) ((-13103165503658608882) / S20) (20 / S20)) by (apply frac_near; vm_compute; reflexivity).
  assert (B : 2 * / IZR (4 ^ Z.of_nat 19 * factZ 19 * factZ (19 + 1)) * 363797880709171295166015625 <= 1e-17).
  { let v := eval vm_compute in (4 ^ Z.of_nat 19 * factZ 19 * factZ (19 + 1))%Z in replace (4 ^ Z.of_nat 19 * factZ 19 * factZ (19 + 1))%Z with v by (vm_compute; reflexivity). lra. }
  fold (near (G 1 25) (IZR (evZ tl1 25) / IZR den1) (2 * / IZR (4 ^ Z.of_nat 19 * factZ 19 * factZ (19 + 1)) * 363797880709171295166015625)) in T.
  assert (T' : near (G 1 25) ((-13103165503658608882) / S20) 1.1e-17). { pose proof (near_shift _ _ _ _ _ T F) as U. unfold near in *. replace (20 / S20) with 2e-19 in U by (unfold S20; lra). lra. }
  replace ((5 / 2) ^ 1 * G 1 25) with (5 / 2 * G 1 25) by (simpl; lra). apply (near_scal (5 / 2)) in T'. rewrite (Rabs_pos_eq (5 / 2)) in T' by lra. unfold near in *. replace (5 / 2 * ((-13103165503658608882) / S20)) with ((-32757913759146522205) / S20) in T' by lra. lra.
Qed.
Lemma s5 : near (sqrt 5) (223606797749978969641 / S20) (1 / S20).
Proof. unfold near, S20. apply Rabs_le. pose proof (sqrt_sqrt 5 ltac:(lra)). pose proof (sqrt_pos 5). nra. Qed.
Lemma K5 : near (/ SQ2OPI) (125331413731550025121 / S20) (1 / S20).
Proof. unfold near, SQ2OPI, S20. apply Rabs_le. lra. Qed.
Lemma combine a a1 b b1 C S J J' K s a0 a10 b0 b10 C0 S0 J0 J'0 K0 s0 :
  near a a0 (1 / S20) -> near a1 a10 (1 / S20) -> near b b0 (1 / S20) -> near b1 b10 (1 / S20) -> near C C0 3e-19 -> near S S0 2e-18 -> near J J0 3e-17 -> near J' J'0 3e-17 -> near K K0 (1 / S20) -> near s s0 (1 / S20) ->
  Rabs a0 <= 2 -> Rabs a10 <= 1 -> Rabs b0 <= 1 -> Rabs b10 <= 1 -> Rabs C0 <= 1 -> Rabs S0 <= 1 -> Rabs J0 <= 1 -> Rabs J'0 <= 1 -> Rabs K0 <= 3 -> Rabs s0 <= 3 -> Rabs (K0 * s0) <= 3 ->
  near (a * C - b * S - K * (s * J)) (a0 * C0 - b0 * S0 - K0 * s0 * J0) 1e-15 /\
  near ((- 2 / 5 * a1 - b) * C - (a - 1 / 5 * (b + 2 * b1)) * S - K * (s * (1 / 10 * J + J'))) ((- 2 / 5 * a10 - b0) * C0 - (a0 - 1 / 5 * (b0 + 2 * b10)) * S0 - K0 * s0 * (1 / 10 * J0 + J'0)) 1e-15.
Proof.
  replace (1 / S20) with 1e-20 by (unfold S20; lra).
  intros Ha Ha1 Hb Hb1 HC HS HJ HJ' HK Hs La La1 Lb Lb1 LC LS LJ LJ' LK Ls LKs.
  pose proof (near_mul _ _ _ _ _ _ HK Hs ltac:(lra) ltac:(lra) ltac:(lra)) as KS.
  split.
  - pose proof (near_mul _ _ _ _ _ _ Ha HC ltac:(lra) ltac:(lra) ltac:(lra)) as F1. pose proof (near_mul _ _ _ _ _ _ Hb HS ltac:(lra) ltac:(lra) ltac:(lra)) as F2. pose proof (near_mul _ _ _ _ _ _ KS HJ ltac:(lra) ltac:(lra) ltac:(lra)) as F3.
    pose proof (near_sub _ _ _ _ _ _ (near_sub _ _ _ _ _ _ F1 F2) F3) as F. rewrite (Rmult_assoc K s J) in F. unfold near in *. lra.
  - pose proof (near_sub _ _ _ _ _ _ (near_scal (- 2 / 5) _ _ _ Ha1) Hb) as G1. rewrite (Rabs_left (- 2 / 5)) in G1 by lra.
    pose proof (near_sub _ _ _ _ _ _ Ha (near_scal (1 / 5) _ _ _ (near_add _ _ _ _ _ _ Hb (near_scal 2 _ _ _ Hb1)))) as G2. rewrite (Rabs_pos_eq (1 / 5)), (Rabs_pos_eq 2) in G2 by lra.
    pose proof (near_add _ _ _ _ _ _ (near_scal (1 / 10) _ _ _ HJ) HJ') as G3. rewrite (Rabs_pos_eq (1 / 10)) in G3 by lra.
    apply Rabs_le_between in La, La1, Lb, Lb1, LJ, LJ'.
    assert (B1 : Rabs (- 2 / 5 * a10 - b0) <= 3) by (apply Rabs_le; lra). assert (B2 : Rabs (a0 - 1 / 5 * (b0 + 2 * b10)) <= 3) by (apply Rabs_le; lra). assert (B3 : Rabs (1 / 10 * J0 + J'0) <= 3) by (apply Rabs_le; lra).
    pose proof (near_mul _ _ _ _ _ _ G1 HC B1 ltac:(lra) ltac:(lra)) as F1. pose proof (near_mul _ _ _ _ _ _ G2 HS B2 ltac:(lra) ltac:(lra)) as F2. pose proof (near_mul _ _ _ _ _ _ KS G3 LKs B3 ltac:(lra)) as F3.
    pose proof (near_sub _ _ _ _ _ _ (near_sub _ _ _ _ _ _ F1 F2) F3) as F. rewrite (Rmult_assoc K s) in F. unfold near in *. lra.
Qed.
Lemma near_abs x c w v : near x c w -> Rabs c <= v -> Rabs x <= v + w.
Proof. unfold near. intros H1 H2. replace x with ((x - c) + c) by ring. eapply Rle_trans; [apply Rabs_triang|]. lra. Qed.
Lemma at5 a a1 b b1 J J' phi K : err a b J phi K 5 = a 1 * cos (5 - phi) - b 1 * sin (5 - phi) - K * (sqrt 5 * J 5) /\
  err1 a a1 b b1 J J' phi K 5 = (- 2 / 5 * a1 1 - b 1) * cos (5 - phi) - (a 1 - 1 / 5 * (b 1 + 2 * b1 1)) * sin (5 - phi) - K * (sqrt 5 * (1 / 10 * J 5 + J' 5)).
Proof.
  unfold err, err1. cbv zeta. replace (25 / 5 ^ 2) with 1 by field. split; [field|]. assert (S5 : / sqrt 5 = sqrt 5 / 5). { pose proof (sqrt_sqrt 5 ltac:(lra)) as H. pose proof (sqrt_lt_R0 5 ltac:(lra)). apply (Rmult_eq_reg_r (sqrt 5)); [|lra]. rewrite Rinv_l by lra. unfold Rdiv. rewrite Rmult_assoc, (Rmult_comm (/ 5)), <- Rmult_assoc, H. field. }
  replace (J 5 / (2 * sqrt 5)) with (J 5 * (/ sqrt 5) / 2) by (field; pose proof (sqrt_lt_R0 5 ltac:(lra)); lra). rewrite S5. field.
Qed.
Definition dJ0 (x : R) : R := - besselJ 1 x.
Definition dJ1 (x : R) : R := besselJ 0 x - besselJ 1 x / x.
Ltac side := unfold S20; apply Rabs_le; lra.
Lemma match0 : Rabs (err (quo pp0 pq0) (quo qp0 qq0) (besselJ 0) PIO4 (/ SQ2OPI) 5) <= 2e-15 /\ Rabs (err1 (quo pp0 pq0) (quo1 pp0 pq0) (quo qp0 qq0) (quo1 qp0 qq0) (besselJ 0) dJ0 PIO4 (/ SQ2OPI) 5) <= 2e-15.
Proof.
  assert (HJ' : near (dJ0 5) (- 1 * ((-32757913759146522205) / S20)) 3e-17). { unfold dJ0. replace (- besselJ 1 5) with (- 1 * besselJ 1 5) by ring. replace 3e-17 with (Rabs (- 1) * 3e-17) by (rewrite Rabs_left; lra). apply near_scal, J1_5. }
  assert (HJ : near (besselJ 0 5) ((-17759677131433830435) / S20) 3e-17) by (pose proof J0_5; unfold near in *; lra).
  destruct (at5 (quo pp0 pq0) (quo1 pp0 pq0) (quo qp0 qq0) (quo1 qp0 qq0) (besselJ 0) dJ0 PIO4 (/ SQ2OPI)) as [-> ->].
  destruct (combine _ _ _ _ _ _ _ _ _ _ _ _ _ _ _ _ _ _ _ _ a_0 a1_0 b_0 b1_0 (proj1 cs_0) (proj2 cs_0) HJ HJ' K5 s5) as [E0 E1]; [side..|].
  split; [eapply Rle_trans; [apply (near_abs _ _ _ 1e-15 E0)|lra]|eapply Rle_trans; [apply (near_abs _ _ _ 1e-15 E1)|lra]]; side.
Qed.
Lemma match1 : Rabs (err (quo pp1 pq1) (quo qp1 qq1) (besselJ 1) THPIO4 (/ SQ2OPI) 5) <= 2e-15 /\ Rabs (err1 (quo pp1 pq1) (quo1 pp1 pq1) (quo qp1 qq1) (quo1 qp1 qq1) (besselJ 1) dJ1 THPIO4 (/ SQ2OPI) 5) <= 2e-15.
Proof.
  assert (HJ' : near (dJ1 5) ((-17759677131433830435) / S20 - 1 / 5 * ((-32757913759146522205) / S20)) 3e-17).
  { unfold dJ1. replace (besselJ 1 5 / 5) with (1 / 5 * besselJ 1 5) by field. pose proof (near_sub _ _ _ _ _ _ J0_5 (near_scal (1 / 5) _ _ _ J1_5)) as H. rewrite (Rabs_pos_eq (1 / 5)) in H by lra. unfold near in *. lra. }
  destruct (at5 (quo pp1 pq1) (quo1 pp1 pq1) (quo qp1 qq1) (quo1 qp1 qq1) (besselJ 1) dJ1 THPIO4 (/ SQ2OPI)) as [-> ->].
  destruct (combine _ _ _ _ _ _ _ _ _ _ _ _ _ _ _ _ _ _ _ _ a_1 a1_1 b_1 b1_1 (proj1 cs_1) (proj2 cs_1) J1_5 HJ' K5 s5) as [E0 E1]; [side..|].
  split; [eapply Rle_trans; [apply (near_abs _ _ _ 1e-15 E0)|lra]|eapply Rle_trans; [apply (near_abs _ _ _ 1e-15 E1)|lra]]; side.
Qed.

(** ** the bound *)
Lemma p16' : IZR (10 ^ 16) = 10000000000000000. Proof. apply f_equal. vm_compute. reflexivity. Qed.
Lemma err0_bound x : 5 <= x -> Rabs (err (quo pp0 pq0) (quo qp0 qq0) (besselJ 0) PIO4 (/ SQ2OPI) x) <= 1.35e-13.
Proof.
  intros Hx. eapply Rle_trans.
  - apply (err_bound (quo pp0 pq0) (quo1 pp0 pq0) (quo2 pp0 pq0) (quo qp0 qq0) (quo1 qp0 qq0) (quo2 qp0 qq0) (besselJ 0) dJ0 0 PIO4 (/ SQ2OPI) (4000 / IZR (10 ^ 16)) (800 / IZR (10 ^ 16))); auto.
    + intros q Hq. apply quo_derive. apply Rgt_not_eq, pq0_pos; lra.
    + intros q Hq. apply quo1_derive. apply Rgt_not_eq, pq0_pos; lra.
    + intros q Hq. apply quo_derive. apply Rgt_not_eq, qq0_pos; lra.
    + intros q Hq. apply quo1_derive. apply Rgt_not_eq, qq0_pos; lra.
    + intros t _. apply J0_derive.
    + intros t Ht. unfold dJ0. evar_last. { apply (is_derive_opp (V := R_NormedModule)), J1_derive; lra. } change (- (besselJ 0 t - besselJ 1 t / t) = - - besselJ 1 t / t - (1 - 0 / t ^ 2) * besselJ 0 t). field. lra.
    + apply Rabs_le. lra.
    + apply (rr1_bound pp0 pq0 qp0 qq0 1); [lra|apply pq0_pos|apply qq0_pos|lia|lia|vm_compute; reflexivity|vm_compute; reflexivity|vm_compute; reflexivity].
    + apply (rr2_bound pp0 pq0 qp0 qq0 1); [lra|apply pq0_pos|apply qq0_pos|lia|lia|vm_compute; reflexivity|vm_compute; reflexivity|vm_compute; reflexivity].
  - destruct match0 as [H1 H2]. rewrite p16'. lra.
Qed.
Lemma err1_bound x : 5 <= x -> Rabs (err (quo pp1 pq1) (quo qp1 qq1) (besselJ 1) THPIO4 (/ SQ2OPI) x) <= 1.35e-13.
Proof.
  intros Hx. eapply Rle_trans.
  - apply (err_bound (quo pp1 pq1) (quo1 pp1 pq1) (quo2 pp1 pq1) (quo qp1 qq1) (quo1 qp1 qq1) (quo2 qp1 qq1) (besselJ 1) dJ1 1 THPIO4 (/ SQ2OPI) (4000 / IZR (10 ^ 16)) (1200 / IZR (10 ^ 16))); auto.
    + intros q Hq. apply quo_derive. apply Rgt_not_eq, pq1_pos; lra.
    + intros q Hq. apply quo1_derive. apply Rgt_not_eq, pq1_pos; lra.
    + intros q Hq. apply quo_derive. apply Rgt_not_eq, qq1_pos; lra.
    + intros q Hq. apply quo1_derive. apply Rgt_not_eq, qq1_pos; lra.
    + intros t Ht. apply J1_derive; lra.
    + intros t Ht. unfold dJ1. pose proof (J0_derive t) as D0. pose proof (J1_derive t ltac:(lra)) as D1. auto_derive.
      * repeat split; [eexists; exact D0|eexists; exact D1|lra].
      * replace (Derive (fun x => besselJ 0 x) t) with (- besselJ 1 t) by (symmetry; apply is_derive_unique; exact D0). replace (Derive (fun x => besselJ 1 x) t) with (besselJ 0 t - besselJ 1 t / t) by (symmetry; apply is_derive_unique; exact D1). field. lra.
    + apply Rabs_le. lra.
    + apply (rr1_bound pp1 pq1 qp1 qq1 (-3)); [lra|apply pq1_pos|apply qq1_pos|lia|lia|vm_compute; reflexivity|vm_compute; reflexivity|vm_compute; reflexivity].
    + apply (rr2_bound pp1 pq1 qp1 qq1 (-3)); [lra|apply pq1_pos|apply qq1_pos|lia|lia|vm_compute; reflexivity|vm_compute; reflexivity|vm_compute; reflexivity].
  - destruct match1 as [H1 H2]. rewrite p16'. lra.
Qed.
Lemma from_err e x (j J B : R) : 5 <= x -> j - J = e * SQ2OPI / sqrt x -> Rabs e <= B -> Rabs (j - J) <= 0.36 * B.
Proof.
  intros Hx -> He. assert (S : 2.236 <= sqrt x). { rewrite <- (sqrt_pow2 2.236) by lra. apply sqrt_le_1; lra. }
  unfold Rdiv. rewrite !Rabs_mult, Rabs_inv, (Rabs_pos_eq (sqrt x)), (Rabs_pos_eq SQ2OPI) by (unfold SQ2OPI; lra). rewrite Rmult_assoc, Rmult_comm. apply Rmult_le_compat; auto using Rabs_pos; [apply Rmult_le_pos; [unfold SQ2OPI; lra|left; apply Rinv_0_lt_compat; lra]|].
  apply (Rmult_le_reg_r (sqrt x)); [lra|]. rewrite Rmult_assoc, Rinv_l by lra. unfold SQ2OPI. lra.
Qed.
Lemma S24_pos : 0 < S24. Proof. unfold S24. lra. Qed.
Lemma polyval_quo P Q (q : R) : 0 < ev Q q -> polyval (rev (map (fun c => IZR c / S24) P)) q / polyval (rev (map (fun c => IZR c / S24) Q)) q = quo P Q q.
Proof. intros H. rewrite !polyval_ev. unfold quo. pose proof S24_pos. field. split; lra. Qed.
Lemma large0 x : 5 <= x -> Rabs (j0_large x - besselJ 0 x) <= 5e-14.
Proof.
  intros Hx. eapply Rle_trans; [apply (from_err (err (quo pp0 pq0) (quo qp0 qq0) (besselJ 0) PIO4 (/ SQ2OPI) x) x (j0_large x) (besselJ 0 x) 1.35e-13 Hx)|]; [|apply err0_bound; exact Hx|lra].
  unfold j0_large, err. cbv zeta. assert (Q : 0 <= 25 / (x * x)) by (left; apply Rdiv_lt_0_compat; nra). replace (25 / x ^ 2) with (25 / (x * x)) by (f_equal; ring).
  rewrite pp0_eq, pq0_eq, qp0_eq, qq0_eq, !polyval_quo by (first [apply pq0_pos|apply qq0_pos]; auto). assert (0 < SQ2OPI) by (unfold SQ2OPI; lra). pose proof (sqrt_lt_R0 x ltac:(lra)). field. repeat split; lra.
Qed.
Lemma large1 x : 5 <= x -> Rabs (j1_large x - besselJ 1 x) <= 5e-14.
Proof.
  intros Hx. eapply Rle_trans; [apply (from_err (err (quo pp1 pq1) (quo qp1 qq1) (besselJ 1) THPIO4 (/ SQ2OPI) x) x (j1_large x) (besselJ 1 x) 1.35e-13 Hx)|]; [|apply err1_bound; exact Hx|lra].
  unfold j1_large, err. cbv zeta. assert (Q : 0 <= 25 / (x * x)) by (left; apply Rdiv_lt_0_compat; nra). replace (25 / x ^ 2) with (25 / (x * x)) by (f_equal; ring). replace (5 / x * (5 / x)) with (25 / (x * x)) by (field; lra).
  rewrite pp1_eq, pq1_eq, qp1_eq, qq1_eq, !polyval_quo by (first [apply pq1_pos|apply qq1_pos]; auto). assert (0 < SQ2OPI) by (unfold SQ2OPI; lra). pose proof (sqrt_lt_R0 x ltac:(lra)). field. repeat split; lra.
Qed.
