(** The triple-lens polynomial in the mid-point frame (C06). *)
From Coq Require Import Reals List.
From Coquelicot Require Import Complex.
From Verif Require Import Base_R Base_C M_Utils M_Coeffs S_Poly S_PointSource M_PointSource P_Poly P_PointSource P_Images M_CoeffsTriple.
Import ListNotations.
Local Open Scope R_scope.
Local Open Scope C_scope.

Section Poly.
Variables w wb a r3 r3b e1 e2 z : C.
Let e3 := 1 - e1 - e2.
Let D := (z - a) * (z + a) * (z - r3).
Let N := e1 * (z + a) * (z - r3) + e2 * (z - a) * (z - r3) + e3 * (z - a) * (z + a).
Let Q1 := (wb - a) * D + N.
Let Q2 := (wb + a) * D + N.
Let Q3 := (wb - r3b) * D + N.
Lemma triple_factored :
  t0 w wb a r3 r3b e1 e2 * z ^ 10 + t1 w wb a r3 r3b e1 e2 * z ^ 9 + t2 w wb a r3 r3b e1 e2 * z ^ 8 + t3 w wb a r3 r3b e1 e2 * z ^ 7 + t4 w wb a r3 r3b e1 e2 * z ^ 6
  + t5 w wb a r3 r3b e1 e2 * z ^ 5 + t6 w wb a r3 r3b e1 e2 * z ^ 4 + t7 w wb a r3 r3b e1 e2 * z ^ 3 + t8 w wb a r3 r3b e1 e2 * z ^ 2 + t9 w wb a r3 r3b e1 e2 * z + t10 w wb a r3 r3b e1 e2
  = (z - w) * (Q1 * Q2 * Q3) - D * (e1 * (Q2 * Q3) + e2 * (Q1 * Q3) + e3 * (Q1 * Q2)).
Proof. unfold t0, t1, t2, t3, t4, t5, t6, t7, t8, t9, t10, Q1, Q2, Q3, N, D, e3. ring. Qed.
End Poly.

Section Same.
Variables (a e1 e2 : R) (p3 w z : C).
Let e3 := (1 - e1 - e2)%R.
Let sh := triple_shift_cm a p3 e1 e2.
Lemma Hm : (e2 + e1 + e3 = 1)%R.
Proof. unfold e3. ring. Qed.
Lemma Hcm : RtoC e2 * (- RtoC a - sh) + e1 * (RtoC a - sh) + e3 * (p3 - sh) = 0.
Proof.
  transitivity (RtoC e2 * (- RtoC a) + e1 * a + e3 * p3 - RtoC (e2 + e1 + e3) * sh).
  - rewrite !RtoC_plus. ring.
  - rewrite Hm. unfold sh. rewrite shift_cm_value. fold e3. ring.
Qed.
Lemma mid_peval : peval (poly_coeffs_triple w a p3 e1 e2) z =
  let D := (z - a) * (z + a) * (z - p3) in
  let N := e1 * (z + a) * (z - p3) + e2 * (z - a) * (z - p3) + e3 * (z - a) * (z + a) in
  let Q1 := (Cconj w - a) * D + N in let Q2 := (Cconj w + a) * D + N in let Q3 := (Cconj w - Cconj p3) * D + N in
  (z - w) * (Q1 * Q2 * Q3) - D * (e1 * (Q2 * Q3) + e2 * (Q1 * Q3) + e3 * (Q1 * Q2)).
Proof.
  cbv zeta. replace (RtoC e3) with (1 - RtoC e1 - RtoC e2) by (unfold e3; rewrite !RtoC_minus; reflexivity). rewrite <- (triple_factored w (Cconj w) a p3 (Cconj p3) e1 e2 z). unfold poly_coeffs_triple. cbn [map]. generalize (t0 w (Cconj w) a p3 (Cconj p3) e1 e2), (t1 w (Cconj w) a p3 (Cconj p3) e1 e2), (t2 w (Cconj w) a p3 (Cconj p3) e1 e2), (t3 w (Cconj w) a p3 (Cconj p3) e1 e2), (t4 w (Cconj w) a p3 (Cconj p3) e1 e2), (t5 w (Cconj w) a p3 (Cconj p3) e1 e2), (t6 w (Cconj w) a p3 (Cconj p3) e1 e2), (t7 w (Cconj w) a p3 (Cconj p3) e1 e2), (t8 w (Cconj w) a p3 (Cconj p3) e1 e2), (t9 w (Cconj w) a p3 (Cconj p3) e1 e2), (t10 w (Cconj w) a p3 (Cconj p3) e1 e2).
  intros. unfold peval. simpl. ring.
Qed.
Lemma mid_is_cm : peval (poly_coeffs_triple w a p3 e1 e2) z = peval (fst (poly_coeffs_triple_CM w a p3 e1 e2)) (z - sh).
Proof.
  rewrite mid_peval. unfold poly_coeffs_triple_CM. cbn [fst]. fold sh e3. pose proof Hm as A. pose proof Hcm as B.
  destruct (Ceq_dec (z - a) 0) as [E|N2].
  { assert (Ez : z = a) by (now apply Cminus_eq_0). rewrite Ez. rewrite (triple_at_c2 _ _ _ _ _ _ _ A B). cbv zeta. ring. }
  destruct (Ceq_dec (z + a) 0) as [E|N1].
  { assert (Ez : z = - RtoC a) by (rewrite <- (Cplus_0_r (- RtoC a)), <- E; ring). rewrite Ez. rewrite (triple_at_c1 _ _ _ _ _ _ _ A B). cbv zeta. ring. }
  destruct (Ceq_dec (z - p3) 0) as [E|N3].
  { assert (Ez : z = p3) by (now apply Cminus_eq_0). rewrite Ez. rewrite (triple_at_c3 _ _ _ _ _ _ _ A B). cbv zeta. ring. }
  assert (M1 : z - sh - (- RtoC a - sh) <> 0) by (now replace (z - sh - (- RtoC a - sh)) with (z + a) by ring).
  assert (M2 : z - sh - (RtoC a - sh) <> 0) by (now replace (z - sh - (RtoC a - sh)) with (z - a) by ring).
  assert (M3 : z - sh - (p3 - sh) <> 0) by (now replace (z - sh - (p3 - sh)) with (z - p3) by ring).
  rewrite (triple_poly_zeta _ _ _ _ _ _ _ A B _ M1 M2 M3). rewrite polyH_fact.
  replace (z - sh - (- RtoC a - sh)) with (z + a) by ring. replace (z - sh - (RtoC a - sh)) with (z - a) by ring. replace (z - sh - (p3 - sh)) with (z - p3) by ring.
  replace (w - sh - (- RtoC a - sh)) with (w + a) by ring. replace (w - sh - (RtoC a - sh)) with (w - a) by ring. replace (w - sh - (p3 - sh)) with (w - p3) by ring. replace (z - sh - (w - sh)) with (z - w) by ring.
  autorewrite with cconj. cbv zeta. set (t := e2 / (z + a) + e1 / (z - a) + e3 / (z - p3)).
  assert (Et : e1 * (z + a) * (z - p3) + e2 * (z - a) * (z - p3) + e3 * (z - a) * (z + a) = t * ((z - a) * (z + a) * (z - p3))) by (unfold t; field; auto). rewrite Et. ring.
Qed.
End Same.
