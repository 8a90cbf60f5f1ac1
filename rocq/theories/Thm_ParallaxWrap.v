(** Parallax after whole years and whole turns in right ascension: properties C34 and C35. *)
From Coq Require Import Reals List Bool Arith ZArith Lia Lra.
From Verif Require Import Base_R Base_List M_Utils M_MergeArea S_Parallax M_Parallax P_Parallax.
Import ListNotations.
Local Open Scope R_scope.

(** From one year to the next the offsets repeat except for the uniform motion that was taken out at the reference time. *)
Theorem C34_year_drift : forall piEN piEE p t k x y, pp_period p <> 0 -> compute_parallax [t] piEN piEE p = ([x], [y]) ->
  let years := IZR k * pp_period p in let v := pp_v0 p in
  compute_parallax [t + years] piEN piEE p =
    ([x - years * (piEN * fst v + piEE * snd v)], [y - years * (piEN * snd v - piEE * fst v)]).
Proof.
  intros n e p t k x y HP E years v. unfold compute_parallax in *. cbn [map] in *. apply pair_lists in E. destruct E as [<- <-].
  unfold compute_parallax1. unfold years. rewrite project_periodic by exact HP. fold v. cbn [fst snd]. f_equal; f_equal; ring.
Qed.
(** right ascension is an angle *)
Theorem C35_full_turn : forall tref tperi tvernal RA Dec rotaxis_deg ecc period dt k,
  set_parallax tref tperi tvernal (RA + 360 * IZR k) Dec rotaxis_deg ecc period dt =
  set_parallax tref tperi tvernal RA Dec rotaxis_deg ecc period dt.
Proof.
  intros. unfold set_parallax. assert (H : forall f, prepare_projection_basis rotaxis_deg f (RA + 360 * IZR k) Dec =
    prepare_projection_basis rotaxis_deg f RA Dec).
  { intros f. unfold prepare_projection_basis, line_of_sight.
    replace (deg2rad (RA + 360 * IZR k)) with (deg2rad RA + 2 * IZR k * PI) by (unfold deg2rad; field).
    rewrite cos_period_Z, sin_period_Z. reflexivity. }
  destruct (if Reqb (tperi * tvernal) 0 then peri_vernal tref else (tperi, tvernal)) as [tp tv]. rewrite H. reflexivity.
Qed.
Example C34_drift_case : exists p x y, set_parallax 8000 0 0 266.4 (-29) 23.44 0.0167 365.25636 0.1 = Some p /\
  compute_parallax [8000 + 365.25636] 1 0 p = ([x], [y]) /\ x = - 365.25636 * fst (pp_v0 p) /\ y = - 365.25636 * snd (pp_v0 p).
Proof.
  destruct (set_parallax_defined 8000 0 0 266.4 (-29) 23.44 0.0167 365.25636 0.1 ltac:(lra)) as (p & E & _).
  assert (HP : pp_period p = 365.25636).
  { revert E. unfold set_parallax. destruct (if Reqb (0 * 0) 0 then peri_vernal 8000 else (0, 0)) as [tp tv].
    destruct (prepare_projection_basis 23.44 (f_rot tp tv 365.25636 0.0167) 266.4 (-29)) as [[Rm [n|]] [e|]]; cbv iota zeta beta; intros E;
      [|discriminate E..]. exact (f_equal (fun o => match o with Some z => pp_period z | None => 0 end) (eq_sym E)). }
  pose proof (parallax_zero _ _ _ _ _ _ _ _ _ p 1 0 E) as Z.
  pose proof (C34_year_drift 1 0 p 8000 1 0 0 ltac:(rewrite HP; lra) Z) as D. cbv zeta in D. rewrite HP in D.
  exists p. eexists _, _. split; [exact E|]. split.
  - replace (8000 + 365.25636) with (8000 + IZR 1 * 365.25636) by lra. exact D.
  - split; lra.
Qed.
Example C35_turn_case : set_parallax 8000 0 0 (266.4 + 360 * -1) (-29) 23.44 0.0167 365.25636 0.1 = set_parallax 8000 0 0 266.4 (-29) 23.44 0.0167 365.25636 0.1.
Proof. apply C35_full_turn. Qed.

Print Assumptions C34_year_drift.
Print Assumptions C35_full_turn.
