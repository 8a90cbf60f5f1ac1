(** Model of src/microjax/fastlens/fftlog.py (fftlog_jax.py is a transcription, whose indexing errors are not modelled).  [None] is NaN or infinity.  The gamma
    function ratios [g_l] (lines 172-239) are an argument [g : C -> C]; [rfft] and [irfft] are numpy's documented sums.
    Counts are naturals. *)
From Coq Require Import Reals List Bool Arith.
From Coquelicot Require Import Complex.
From Verif Require Import Base_R Base_C Base_List.
Import ListNotations.
Local Open Scope R_scope.

Notation num := (option R).
Definition nmap2 (f : R -> R -> num) (a b : num) : num := match a, b with Some x, Some y => f x y | _, _ => None end.
Definition nmul := nmap2 (fun x y => Some (x * y)).
Definition ndiv := nmap2 (fun x y => if Reqb y 0 then None else Some (x / y)).
Definition nbind (a : num) (f : R -> num) : num := match a with Some x => f x | None => None end.
(** [np.log], [np.exp], real powers of positive numbers, [np.sqrt] *)
Definition nlog (a : num) : num := nbind a (fun x => if Rltb 0 x then Some (ln x) else None).
Definition npow (a : num) (e : R) : num := nbind a (fun x => if Rltb 0 x then Some (Rpower x e) else None).
Definition nsqrt (a : num) : num := nbind a (fun x => if Rltb x 0 then None else Some (sqrt x)).

(** fftlog.py:144-154 [log_extrap]; a list shorter than two entries raises as soon as one end is extended *)
Definition log_extrap (x : list num) (nl nh : nat) : res (list num) :=
  let n := length x in
  if (((0 <? nl) || (0 <? nh)) && (n <? 2))%nat then Raise IndexError else
  let d_low := nlog (ndiv (nth 1 x None) (nth 0 x None)) in
  let low := map (fun k => nmul (nth 0 x None) (option_map (fun d => exp (d * - INR (nl - k))) d_low)) (seq 0 nl) in
  let d_high := nlog (ndiv (nth (n - 1) x None) (nth (n - 2) x None)) in
  let high := map (fun k => nmul (nth (n - 1) x None) (option_map (fun d => exp (d * INR (k + 1))) d_high)) (seq 0 nh) in
  Ok (low ++ x ++ high).

(** fftlog.py:156-170 [c_window], at one index [m] of [n = arange(L + 1)] *)
Definition c_window (L n_cut m : nat) : num :=
  if (L <? m + n_cut)%nat then
    nbind (ndiv (Some (INR (L - m))) (Some (INR n_cut - 1)))
      (fun theta => Some (theta - 1 / (2 * PI) * sin (2 * PI * theta)))
  else Some 1.
(** fftlog.py:67 [int(self.c_window_width*self.N//2.)] for a non-negative width *)
Definition cut_of (width : R) (N : nat) : nat := Z.to_nat (Int_part (width * INR N / 2)).

Record fft := mkfft { f_x : list num; f_fx : list num; f_N : nat; f_high : nat; f_low : nat; f_dlnx : num }.
Definition bind {A B} (r : res A) (f : A -> res B) : res B := match r with Ok a => f a | Raise e => Raise e end.
(** fftlog.py:18-51 [fftlog.__init__] without the coefficients; arrays of different lengths cannot be multiplied in
    [get_c_m] (broadcasting of a single value is not modelled) *)
Definition fftlog_init (x fx : list num) (nl nh npad : nat) : res fft :=
  if (length x <? 2)%nat then Raise IndexError else
  let dlnx := nlog (ndiv (nth 1 x None) (nth 0 x None)) in
  bind (log_extrap x nl nh) (fun x1 =>
  bind (log_extrap fx nl nh) (fun fx1 =>
  if negb (length fx =? length x)%nat then Raise ValueError else
  let N1 := length x1 in
  bind (if (npad =? 0)%nat then Ok (x1, fx1, N1, nh, nl)
        else bind (log_extrap x1 npad npad) (fun x2 =>
             Ok (x2, repeat (Some 0) npad ++ fx1 ++ repeat (Some 0) npad, (N1 + 2 * npad)%nat, (nh + npad)%nat, (nl + npad)%nat)))
  (fun '(x2, fx2, N2, high, low) =>
  if Nat.odd N2
  then Ok (mkfft (removelast x2) (removelast fx2) (N2 - 1) (if (npad =? 0)%nat then high else high - 1)%nat low dlnx)
  else Ok (mkfft x2 fx2 N2 high low dlnx)))).

(** a NaN anywhere in the input of an FFT makes every coefficient NaN *)
Fixpoint all_num (l : list num) : option (list R) :=
  match l with
  | [] => Some []
  | Some x :: t => option_map (cons x) (all_num t)
  | None :: _ => None
  end.
(** [numpy.fft.rfft], coefficient [m] *)
Definition rfft (f : list R) (m : nat) : C :=
  let N := length f in
  sumC (map (fun n => RtoC (nth n f 0) * cexpi (- (2 * PI * INR n * INR m / INR N)))%C (seq 0 N)).
(** [numpy.fft.irfft] of [L + 1] coefficients, output [j] of [2 L]; imaginary parts of the end coefficients are ignored *)
Definition irfft (c : nat -> C) (L j : nat) : R :=
  (Re (c 0%nat) + 2 * sumR (map (fun m => Re (c m * cexpi (2 * PI * INR m * INR j / INR (2 * L)))%C) (seq 1 (L - 1)))
   + Re (c L) * cos (PI * INR j)) / INR (2 * L).

(** fftlog.py:55-68 [get_c_m] and 76-80 [fftlog]: the multiplied coefficient [np.conj(h_m)] *)
Definition h_m (g : C -> C) (nu width : R) (N : nat) (dlnx xy : R) (fb : list R) (m : nat) : option C :=
  let eta := 2 * PI / (INR N * dlnx) * INR m in
  match c_window (N / 2) (cut_of width N) m with
  | None => None
  | Some W => Some (Cconj (rfft fb m * RtoC W * cexpi (- (eta * ln xy)) * g (nu, eta)))%C
  end.
Fixpoint all_c (f : nat -> option C) (n : nat) : bool :=
  match n with O => true | S k => match f k with Some _ => all_c f k | None => false end end.
(** fftlog.py:70-83 [fftlog.fftlog]: the arrays [y] and [Fy], sliced *)
Definition y_array (ell : R) (s : fft) : list num := map (fun v => ndiv (Some (ell + 1)) v) (rev (f_x s)).
Definition slice {A} (s : fft) (l : list A) : list A := firstn (f_N s - f_low s - f_high s) (skipn (f_high s) l).
Definition fb_array (nu : R) (s : fft) : list num := map (fun '(f, x) => nmul f (npow x (- nu))) (combine (f_fx s) (f_x s)).
Definition Fy_array (g : C -> C) (nu width ell : R) (s : fft) : list num :=
  let y := y_array ell s in
  match all_num (fb_array nu s), f_dlnx s, nmul (nth 0 (f_x s) None) (nth 0 y None) with
  | Some fb, Some d, Some xy =>
      let h := h_m g nu width (f_N s) d xy fb in
      if (all_c h (f_N s / 2 + 1) && negb (Reqb d 0) && Rltb 0 xy)%bool then
        map (fun j => nmul (nmul (Some (irfft (fun m => match h m with Some z => z | None => RtoC 0 end) (f_N s / 2) j)) (npow (nth j y None) (- nu)))
                           (Some (sqrt PI / 4))) (seq 0 (f_N s))
      else repeat None (f_N s)
  | _, _, _ => repeat None (f_N s)
  end.
Definition fftlog (g : C -> C) (nu width ell : R) (s : fft) : list num * list num :=
  (slice s (y_array ell s), slice s (Fy_array g nu width ell s)).

(** fftlog.py:130-138 [hankel] *)
Definition hankel (g : C -> C) (nu width n : R) (x fx : list num) (nl nh npad : nat) : res (list num * list num) :=
  bind (fftlog_init x (map (fun '(x, f) => nmul (nsqrt x) f) (combine x fx)) nl nh npad) (fun s =>
  let '(y, Fy) := fftlog g nu width (n - 0.5) s in
  Ok (y, map (fun '(y, F) => nmul F (nsqrt (nbind y (fun y => Some (2 * y / PI))))) (combine y Fy))).
