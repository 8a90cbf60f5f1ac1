(** Model of the array plumbing of src/microjax/inverse_ray/lightcurve.py and
    src/microjax/caustics/lightcurve.py: which value ends up at which output index.
    Element types are arbitrary, numerical routines are parameters. *)
From Coq Require Import Bool List Arith ZArith.
From Verif Require Import Base_R Base_List.
Import ListNotations.

(** python slice [l[:m]] (negative m drops from the end) *)
Definition py_prefix_len (m : Z) (n : nat) : nat :=
  if (0 <=? m)%Z then Nat.min (Z.to_nat m) n else n - Z.to_nat (- m).
Definition py_prefix {A} (m : Z) (l : list A) : list A := firstn (py_prefix_len m (length l)) l.

(** [arr.reshape(-1, k)] *)
Definition reshape_rows {A} (k : nat) (l : list A) : list (list A) :=
  map (fun r => firstn k (skipn (r * k) l)) (seq 0 (length l / k)).

(** inverse_ray/lightcurve.py:192-196 (and 350-354) [chunked_vmap]; [pad] is the zero used by jnp.pad.
    chunk_size = 0 makes python's [%] raise. *)
Definition pad_len (n k : nat) : nat := Z.to_nat ((- Z.of_nat n) mod Z.of_nat k).
Definition chunked_vmap {A B} (pad : A) (func : A -> B) (data : list A) (chunk_size : nat) : res (list B) :=
  if chunk_size =? 0 then Raise ZeroDivisionError else
  let N := length data in
  let chunks := reshape_rows chunk_size (data ++ repeat pad (pad_len N chunk_size)) in
  Ok (firstn N (concat (map (map func) chunks))).

(** jax.lax.scan: the body maps the carry and one row to the next carry and one output row *)
Fixpoint lax_scan {Cy X Y} (body : Cy -> X -> Cy * Y) (carry : Cy) (xs : list X) : Cy * list Y :=
  match xs with
  | [] => (carry, [])
  | x :: xs' => let (carry1, y) := body carry x in
                let (carry2, ys) := lax_scan body carry1 xs' in (carry2, y :: ys)
  end.
(** inverse_ray/lightcurve.py:198-208 [chunked_vmap_scan] (its call, line 212, is commented out); the carry is None *)
Definition chunked_vmap_scan {A B} (pad : A) (func : A -> B) (data : list A) (chunk_size : nat) : res (list B) :=
  if chunk_size =? 0 then Raise ZeroDivisionError else
  let N := length data in
  let chunks := reshape_rows chunk_size (data ++ repeat pad (pad_len N chunk_size)) in
  let outs := snd (lax_scan (fun carry chunk => (carry, map func chunk)) tt chunks) in
  Ok (firstn N (concat outs)).

(** order of booleans used by jnp.argsort: False < True *)
Definition bool_le (a b : bool) : bool := implb a b.

(** inverse_ray/lightcurve.py:189-215 (binary) and 347-360 (triple):
      idx_full = argsort(test)[:MAX_FULL_CALLS]
      mag_extended = chunked_vmap(_mag_full, w_points[idx_full], chunk_size)
      mags = mu_multi.at[idx_full].set(mag_extended)
      where(test, mu_multi, mags) *)
Definition assemble {W M} (wpad : W) (dM : M) (full : W -> M) (w_points : list W) (mu_multi : list M)
    (test : list bool) (max_full : Z) (chunk_size : nat) : res (list M) :=
  let idx_full := py_prefix max_full (argsort bool_le test) in
  res_map (fun mag_extended =>
      let mags := scatter mu_multi idx_full mag_extended in
      map (fun i => if nth i test false then nth i mu_multi dM else nth i mags dM)
          (seq 0 (length test)))
    (chunked_vmap wpad full (gather wpad w_points idx_full) chunk_size).

(** inverse_ray/lightcurve.py:334: zeros_like(w_points).astype(bool) *)
Definition all_false {W} (w : list W) : list bool := map (fun _ => false) w.

(** caustics/lightcurve.py:283-293: lax.map of cond(test, mu_multi, mag_full(w)) *)
Fixpoint cond_map {W M} (full : W -> M) (test : list bool) (mu : list M) (w : list W) : list M :=
  match test, mu, w with
  | t :: ts, m :: ms, x :: xs => (if t then m else full x) :: cond_map full ts ms xs
  | _, _, _ => []
  end.
