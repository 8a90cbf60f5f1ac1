(** Model of src/microjax/coeffs.py (the polynomial coefficient builders used by live code).
    Real scalars are embedded in C; every list is in [polyval] order, highest power first.
    [_poly_coeffs_triple] (coeffs.py:210-end) is not called anywhere and is not modelled. *)
From Coq Require Import Reals List.
From Coquelicot Require Import Complex.
From Verif Require Import Base_C.
Import ListNotations.
Local Open Scope R_scope.
Local Open Scope C_scope.

(** coeffs.py:150-193 [_poly_coeffs_binary] *)
Definition poly_coeffs_binary (w : C) (ra re1 : R) : list C :=
  let a : C := ra in let e1 : C := re1 in
  let wbar := Cconj w in
  let a2 := a * a in let a3 := a2 * a in let a4 := a2 * a2 in let a5 := a3 * a2 in let a6 := a3 * a3 in
  let e1sq := e1 * e1 in
  let wbar2 := wbar * wbar in
  let w_wbar := w * wbar in
  let w_wbar2 := w * wbar2 in
  let p_0 := - a2 + wbar2 in
  let p_1 := a2 * w + a * (1 - 2 * e1) - w_wbar2 + wbar in
  let p_2 := 2 * a2 * (a2 - wbar2) + 2 * a * wbar * (2 * e1 - 1) - 2 * w_wbar in
  let p_3 := 2 * a2 * w_wbar2 - 2 * a4 * w + 2 * a3 * (2 * e1 - 1)
             + 2 * a * w * wbar * (1 - 2 * e1) + a * (2 * e1 - 1) - w in
  let p_4 := - a6 + a4 * wbar2 + 2 * a3 * wbar * (1 - 2 * e1) + 2 * a2 * w * wbar
             + 2 * a2 * (2 * e1sq - 2 * e1 + 1) + 2 * a * w * (1 - 2 * e1) in
  let p_5 := a6 * w + a5 * (1 - 2 * e1) - a4 * (w * wbar2 + wbar) + 2 * a3 * w * wbar * (2 * e1 - 1)
             + a3 * (2 * e1 - 1) + a2 * w * (- (4) * e1sq + 4 * e1 - 1) in
  [p_0; p_1; p_2; p_3; p_4; p_5].

(** coeffs.py:195-208 [_poly_coeffs_critical_binary] *)
Definition poly_coeffs_critical_binary (phi ra re1 : R) : list C :=
  let a : C := ra in let e1 : C := re1 in
  let x := cexpi (- phi) in
  [ x;
    RtoC 0;
    - (2) * a ^ 2 * x - 1;
    - (4) * a * e1 + 2 * a;
    a ^ 4 * x - a ^ 2 ].

(** coeffs.py:15-51 [_poly_coeffs_critical_triple]; [r3] is the complex position of the third lens *)
Definition poly_coeffs_critical_triple (phi ra : R) (r3 : C) (re1 re2 : R) : list C :=
  let a : C := ra in let e1 : C := re1 in let e2 : C := re2 in
  let x := cexpi (- phi) in
  let p_0 := x in
  let p_1 := - (2) * x * r3 in
  let p_2 := - (2) * a ^ 2 * x - 1 + x * r3 ^ 2 in
  let p_3 := 4 * a ^ 2 * x * r3 - 2 * a * e1 + 2 * a * e2 + 2 * e1 * r3 + 2 * e2 * r3 in
  let p_4 := a ^ 4 * x - 3 * a ^ 2 * e1 - 3 * a ^ 2 * e2 + 2 * a ^ 2 - 2 * a ^ 2 * x * r3 ^ 2
             + 4 * a * e1 * r3 - 4 * a * e2 * r3 - e1 * r3 ^ 2 - e2 * r3 ^ 2 in
  let p_5 := - (2) * a ^ 4 * x * r3 + 2 * a ^ 2 * e1 * r3 + 2 * a ^ 2 * e2 * r3
             - 2 * a * e1 * r3 ^ 2 + 2 * a * e2 * r3 ^ 2 in
  let p_6 := a ^ 4 * e1 + a ^ 4 * e2 - a ^ 4 + a ^ 4 * x * r3 ^ 2
             - a ^ 2 * e1 * r3 ^ 2 - a ^ 2 * e2 * r3 ^ 2 in
  [p_0; p_1; p_2; p_3; p_4; p_5; p_6].

(** coeffs.py:74-146: the polynomial body of [_poly_coeffs_triple_CM] once the lens positions
    cc1..cc3 (centre-of-mass frame), the mass fractions and the source ww are known. *)
Definition triple_cm_body (ww cc1 cc2 cc3 eps1 eps2 eps3 : C) : list C :=
  let aa := - (cc1 + cc2 + cc3) in
  let bb := cc1 * cc2 + cc1 * cc3 + cc2 * cc3 in
  let cc := - cc1 * cc2 * cc3 in
  let dd := eps1 * cc2 * cc3 + eps2 * cc1 * cc3 + eps3 * cc1 * cc2 in
  let hh39 := RtoC 1 in
  let hh38 := 3 * aa in
  let hh37 := 3 * bb + 3 * aa * aa in
  let hh36 := 3 * cc + 6 * aa * bb + aa * aa * aa in
  let hh35 := 6 * aa * cc + 3 * bb * bb + 3 * aa * aa * bb in
  let hh34 := 6 * bb * cc + 3 * aa * aa * cc + 3 * aa * bb * bb in
  let hh33 := 3 * cc * cc + 6 * aa * bb * cc + bb * bb * bb in
  let hh32 := 3 * aa * cc * cc + 3 * bb * bb * cc in
  let hh31 := 3 * bb * cc * cc in
  let hh30 := cc * cc * cc in
  let hh28 := RtoC 1 in
  let hh27 := 3 * aa in
  let hh26 := dd + 2 * bb + 3 * aa * aa in
  let hh25 := 2 * aa * dd + 4 * aa * bb + aa * aa * aa + 2 * cc in
  let hh24 := 2 * dd * bb + dd * aa * aa + 4 * aa * cc + 2 * aa * aa * bb + bb * bb in
  let hh23 := 2 * dd * cc + 2 * dd * aa * bb + 2 * aa * aa * cc + aa * bb * bb + 2 * bb * cc in
  let hh22 := 2 * cc * aa * dd + dd * bb * bb + 2 * aa * bb * cc + cc * cc in
  let hh21 := 2 * bb * cc * dd + aa * cc * cc in
  let hh20 := cc * cc * dd in
  let hh17 := RtoC 1 in
  let hh16 := 3 * aa in
  let hh15 := 2 * dd + 3 * aa * aa + bb in
  let hh14 := 4 * aa * dd + aa * aa * aa + 2 * aa * bb + cc in
  let hh13 := dd * dd + 2 * aa * aa * dd + 2 * bb * dd + bb * aa * aa + 2 * aa * cc in
  let hh12 := aa * dd * dd + 2 * aa * bb * dd + 2 * cc * dd + cc * aa * aa in
  let hh11 := bb * dd * dd + 2 * aa * cc * dd in
  let hh10 := cc * dd * dd in
  let hh06 := RtoC 1 in
  let hh05 := 3 * aa in
  let hh04 := 3 * dd + 3 * aa * aa in
  let hh03 := 6 * aa * dd + aa * aa * aa in
  let hh02 := 3 * dd * dd + 3 * aa * aa * dd in
  let hh01 := 3 * aa * dd * dd in
  let hh00 := dd * dd * dd in
  let ww1 := ww - cc1 in let ww2 := ww - cc2 in let ww3 := ww - cc3 in
  let wwbar := Cconj ww in
  let ww1bar := Cconj ww1 in let ww2bar := Cconj ww2 in let ww3bar := Cconj ww3 in
  let wwaa := ww1bar + ww2bar + ww3bar in
  let wwbb := ww1bar * ww2bar + ww2bar * ww3bar + ww1bar * ww3bar in
  let wwcc := ww1bar * ww2bar * ww3bar in
  let wwdd := eps1 * ww2bar * ww3bar + eps2 * ww1bar * ww3bar + eps3 * ww1bar * ww2bar in
  let p_10 := hh39 * wwcc in
  let p_9 := hh38 * wwcc + hh28 * wwbb - (ww * wwcc + wwdd) * hh39 in
  let p_8 := hh37 * wwcc + hh27 * wwbb + hh17 * wwaa - (ww * wwcc + wwdd) * hh38
             - (ww * wwbb + wwaa - wwbar) * hh28 in
  let p_7 := hh36 * wwcc + hh26 * wwbb + hh16 * wwaa + hh06 - (ww * wwcc + wwdd) * hh37
             - (ww * wwbb + wwaa - wwbar) * hh27 - (ww * wwaa + 1) * hh17 in
  let p_6 := hh35 * wwcc + hh25 * wwbb + hh15 * wwaa + hh05 - (ww * wwcc + wwdd) * hh36
             - (ww * wwbb + wwaa - wwbar) * hh26 - (ww * wwaa + 1) * hh16 - ww * hh06 in
  let p_5 := hh34 * wwcc + hh24 * wwbb + hh14 * wwaa + hh04 - (ww * wwcc + wwdd) * hh35
             - (ww * wwbb + wwaa - wwbar) * hh25 - (ww * wwaa + 1) * hh15 - ww * hh05 in
  let p_4 := hh33 * wwcc + hh23 * wwbb + hh13 * wwaa + hh03 - (ww * wwcc + wwdd) * hh34
             - (ww * wwbb + wwaa - wwbar) * hh24 - (ww * wwaa + 1) * hh14 - ww * hh04 in
  let p_3 := hh32 * wwcc + hh22 * wwbb + hh12 * wwaa + hh02 - (ww * wwcc + wwdd) * hh33
             - (ww * wwbb + wwaa - wwbar) * hh23 - (ww * wwaa + 1) * hh13 - ww * hh03 in
  let p_2 := hh31 * wwcc + hh21 * wwbb + hh11 * wwaa + hh01 - (ww * wwcc + wwdd) * hh32
             - (ww * wwbb + wwaa - wwbar) * hh22 - (ww * wwaa + 1) * hh12 - ww * hh02 in
  let p_1 := hh30 * wwcc + hh20 * wwbb + hh10 * wwaa + hh00 - (ww * wwcc + wwdd) * hh31
             - (ww * wwbb + wwaa - wwbar) * hh21 - (ww * wwaa + 1) * hh11 - ww * hh01 in
  let p_0 := - (ww * wwcc + wwdd) * hh30 - (ww * wwbb + wwaa - wwbar) * hh20
             - (ww * wwaa + 1) * hh10 - ww * hh00 in
  [p_10; p_9; p_8; p_7; p_6; p_5; p_4; p_3; p_2; p_1; p_0].

(** coeffs.py:53-63: mass fractions and the mid-point to centre-of-mass shift *)
Definition triple_shift_cm (ra : R) (r3 : C) (re1 re2 : R) : C :=
  let eps1 := re2 in let eps2 := re1 in let eps3 := (1 - re1 - re2)%R in
  ((eps1 * (- ra) + eps2 * ra + eps3 * Re r3)%R, (Im r3 * eps3)%R).

(** coeffs.py:53-148 [_poly_coeffs_triple_CM] *)
Definition poly_coeffs_triple_CM (w : C) (ra : R) (r3 : C) (re1 re2 : R) : list C * C :=
  let shift_cm := triple_shift_cm ra r3 re1 re2 in
  let w_cm := w - shift_cm in
  let r1 := - RtoC ra - shift_cm in
  let r2 := RtoC ra - shift_cm in
  let r3' := r3 - shift_cm in
  (triple_cm_body w_cm r1 r2 r3' re2 re1 (RtoC (1 - re1 - re2)), shift_cm).
