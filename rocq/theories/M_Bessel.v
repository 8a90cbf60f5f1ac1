(** Model of the Bessel functions in src/microjax/fastlens/special.py (lines 236-515): rational approximations from CEPHES and
    their derivative rules.  [None] is NaN.  The unused tables YP0, YQ0, YP1, YQ1 are left out. *)
From Coq Require Import Reals List.
From Verif Require Import Base_R.
Import ListNotations.
Local Open Scope R_scope.

(** [jnp.polyval]: highest coefficient first *)
Definition polyval (p : list R) (x : R) : R := fold_left (fun y c => y * x + c) p 0.

(** special.py:236-241 *)
Definition RP1 : list R := [-8.99971225705559398224e8; 4.52228297998194034323e11; -7.27494245221818276015e13; 3.68295732863852883286e15].
(** special.py:242-252 *)
Definition RQ1 : list R := [1.0; 6.20836478118054335476e2; 2.56987256757748830383e5; 8.35146791431949253037e7; 2.21511595479792499675e10; 4.74914122079991414898e12; 7.84369607876235854894e14; 8.95222336184627338078e16; 5.32278620332680085395e18].
(** special.py:254-262 *)
Definition PP1 : list R := [7.62125616208173112003e-4; 7.31397056940917570436e-2; 1.12719608129684925192e0; 5.11207951146807644818e0; 8.42404590141772420927e0; 5.21451598682361504063e0; 1.00000000000000000254e0].
(** special.py:263-271 *)
Definition PQ1 : list R := [5.71323128072548699714e-4; 6.88455908754495404082e-2; 1.10514232634061696926e0; 5.07386386128601488557e0; 8.39985554327604159757e0; 5.20982848682361821619e0; 9.99999999999999997461e-1].
(** special.py:273-282 *)
Definition QP1 : list R := [5.10862594750176621635e-2; 4.98213872951233449420e0; 7.58238284132545283818e1; 3.66779609360150777800e2; 7.10856304998926107277e2; 5.97489612400613639965e2; 2.11688757100572135698e2; 2.52070205858023719784e1].
(** special.py:283-292 *)
Definition QQ1 : list R := [1.0; 7.42373277035675149943e1; 1.05644886038262816351e3; 4.98641058337653607651e3; 9.56231892404756170795e3; 7.99704160447350683650e3; 2.82619278517639096600e3; 3.36093607810698293419e2].
(** special.py:313 *)
Definition Z1 : R := 1.46819706421238932572e1.
(** special.py:314 *)
Definition Z2 : R := 4.92184563216946036703e1.
(** special.py:315 *)
Definition PIO4 : R := 0.78539816339744830962.
(** special.py:316 *)
Definition THPIO4 : R := 2.35619449019234492885.
(** special.py:317 *)
Definition SQ2OPI : R := 0.79788456080286535588.
(** special.py:321-329 *)
Definition PP0 : list R := [7.96936729297347051624e-4; 8.28352392107440799803e-2; 1.23953371646414299388e0; 5.44725003058768775090e0; 8.74716500199817011941e0; 5.30324038235394892183e0; 9.99999999999999997821e-1].
(** special.py:330-338 *)
Definition PQ0 : list R := [9.24408810558863637013e-4; 8.56288474354474431428e-2; 1.25352743901058953537e0; 5.47097740330417105182e0; 8.76190883237069594232e0; 5.30605288235394617618e0; 1.00000000000000000218e0].
(** special.py:340-349 *)
Definition QP0 : list R := [-1.13663838898469149931e-2; -1.28252718670509318512e0; -1.95539544257735972385e1; -9.32060152123768231369e1; -1.77681167980488050595e2; -1.47077505154951170175e2; -5.14105326766599330220e1; -6.05014350600728481186e0].
(** special.py:350-359 *)
Definition QQ0 : list R := [1.0; 6.43178256118178023184e1; 8.56430025976980587198e2; 3.88240183605401609683e3; 7.24046774195652478189e3; 5.93072701187316984827e3; 2.06209331660327847417e3; 2.42005740240291393179e2].
(** special.py:381 *)
Definition DR10 : R := 5.78318596294678452118e0.
(** special.py:382 *)
Definition DR20 : R := 3.04712623436620863991e1.
(** special.py:384-389 *)
Definition RP0 : list R := [-4.79443220978201773821e9; 1.95617491946556577543e12; -2.49248344360967716204e14; 9.70862251047306323952e15].
(** special.py:390-400 *)
Definition RQ0 : list R := [1.0; 4.99563147152651017219e2; 1.73785401676374683123e5; 4.84409658339962045305e7; 1.11855537045356834862e10; 2.11277520115489217587e12; 3.10518229857422583814e14; 3.18121955943204943306e16; 1.71086294081043136091e18].

(** special.py:403-412 [j0_small] *)
Definition j0_small (x : R) : R :=
  let z := x * x in
  let p := (z - DR10) * (z - DR20) in
  let p := p * polyval RP0 z / polyval RQ0 z in
  if Rltb x 1e-5 then 1 - z / 4 else p.
(** special.py:415-426 [j0_large] *)
Definition j0_large (x : R) : R :=
  let w := 5 / x in
  let q := 25 / (x * x) in
  let p := polyval PP0 q / polyval PQ0 q in
  let q := polyval QP0 q / polyval QQ0 q in
  let xn := x - PIO4 in
  let p := p * cos xn - w * q * sin xn in
  p * SQ2OPI / sqrt x.
(** special.py:429-443 [j0_]; the branch not chosen by the mask is left out *)
Definition j0_ (z : R) : R := if Rltb (Rabs z) 5 then j0_small (Rabs z) else j0_large (Rabs z).
(** special.py:454-461 [j1_small] *)
Definition j1_small (x : R) : R :=
  let z := x * x in
  let w := polyval RP1 z / polyval RQ1 z in
  w * x * (z - Z1) * (z - Z2).
(** special.py:464-474 [j1_large] *)
Definition j1_large (x : R) : R :=
  let w := 5 / x in
  let z := w * w in
  let p := polyval PP1 z / polyval PQ1 z in
  let q := polyval QP1 z / polyval QQ1 z in
  let xn := x - THPIO4 in
  let p := p * cos xn - w * q * sin xn in
  p * SQ2OPI / sqrt x.
(** [jnp.sign] *)
Definition sign (x : R) : R := if Rltb 0 x then 1 else if Rltb x 0 then -1 else 0.
(** special.py:477-494 [j1_]; the branch not chosen is left out, but at 0 the sign multiplies the finite small branch *)
Definition j1_ (z : R) : R := sign z * (if Rltb (Rabs z) 5 then j1_small (Rabs z) else j1_large (Rabs z)).
(** special.py:446-451 [j0_jvp] *)
Definition j0_jvp (m m_dot : R) : R * R := (j0_ m, -1 * m_dot * j1_ m).
(** special.py:497-504 [j1_jvp]; 0/0 at 0 *)
Definition j1_jvp (m m_dot : R) : R * option R :=
  (j1_ m, if Reqb m 0 then None else Some (j0_ m * m_dot - j1_ m * m_dot / m)).
(** special.py:511-512 [j2_]; inf * 0 at 0 *)
Definition j2_ (x : R) : option R := if Reqb x 0 then None else Some (2 / x * j1_ x - j0_ x).
