(** Model of src/microjax/inverse_ray/merge_area.py.  [None] in a result of this file means that the computation
    produced inf/nan values. [refine_final] (lines 116-149, no underscore) has no caller and is not modelled. *)
From Coq Require Import Reals List Bool Arith ZArith.
From Coquelicot Require Import Complex.
From Verif Require Import Base_R Base_List Base_C M_Utils M_PointSource.
Import ListNotations.
Local Open Scope R_scope.

(** [x[-k:]] for k >= 1 *)
Definition lastn {A} (k : nat) (l : list A) : list A := skipn (length l - k) l.
(** [jnp.digitize(x, edges)] for non-decreasing edges: the number of edges <= x *)
Definition digitize (edges : list R) (x : R) : nat := length (filter (fun e => Rleb e x) edges).
(** [jnp.clip(i, lo, hi)] on indices *)
Definition clip_nat (lo hi i : nat) : nat := Nat.min (Nat.max i lo) hi.
Definition b2R (b : bool) : R := if b then 1 else 0.

(** merge_area.py:159-165: the range of the bins; without a non-zero sample it is (inf, -inf) *)
Definition bin_range (mode_r : bool) (arr : list R) : option (R * R) :=
  if mode_r then
    let nz := filter nonzero arr in
    match nz with [] => None | _ => Some (jmin nz, jmax nz) end
  else Some (0, 2 * PI).
(** merge_area.py:166-167 *)
Definition bin_edges (bin_min bin_max : R) (bins : nat) : list R :=
  let delta := (bin_max - bin_min) / INR bins in
  linspace (bin_min - delta) (bin_max + delta) (bins + 3).
(** merge_area.py:168-171: which of the bins 0 .. bins+1 are occupied *)
Definition bin_mask (edges : list R) (bins : nat) (arr : list R) : list bool :=
  let bin_indices := map (fun x => clip_nat 1 bins (digitize edges x - 1)) arr in
  map (fun j => existsb (Nat.eqb j) bin_indices) (seq 0 (bins + 2)).
(** merge_area.py:151-178 [cluster_1d] *)
Definition cluster_1d (arr : list R) (bins max_cluster : nat) (mode_r : bool) : option (list R * list R) :=
  match bin_range mode_r arr with
  | None => None
  | Some (bin_min, bin_max) =>
    let edges := bin_edges bin_min bin_max bins in
    let mask := bin_mask edges bins arr in
    let start_mask := map (fun k => nth (S k) mask false && negb (nth k mask false)) (seq 0 (bins + 1)) in
    let end_mask := map (fun k => negb (nth (S k) mask false) && nth k mask false) (seq 0 (bins + 1)) in
    let inner := firstn (bins + 1) (skipn 1 edges) in
    let masked m := map (fun p => fst p * b2R (snd p)) (combine inner m) in
    Some (lastn max_cluster (jsort (masked start_mask)), lastn max_cluster (jsort (masked end_mask)))
  end.

Definition ival := (R * R)%type.

(** merge_area.py:229-242: shrink each range to the samples strictly inside, add the margin *)
Definition refine_r (r_limb : list R) (margin : R) (rg : ival) : ival :=
  let inside := filter (fun r => Rltb (fst rg) r && Rltb r (snd rg)) r_limb in
  let r_min := match inside with [] => 0 | _ => jmin inside end in
  let r_max := match inside with [] => 0 | _ => jmax inside end in
  (Rmax 0 (r_min - margin), if Reqb r_max 0 then 0 else r_max + margin).
(** merge_area.py:247-257: one step of the merging loop *)
Definition merge_step (rows : list ival) (i : nat) : list ival :=
  let row_0 := nth i rows (0, 0) in
  let row_1 := nth (i + 1) rows (0, 0) in
  if Rltb (fst row_1) (snd row_0)
  then upd (upd rows i (0, 0)) (i + 1) (fst row_0, snd row_1) else rows.
(** merge_area.py:227-258 [_refine_addmargin_merge_r] *)
Definition refine_addmargin_merge_r (r_limb : list R) (r_ranges : list ival) (margin : R) : list ival :=
  fold_left merge_step (seq 0 (length r_ranges - 1)) (map (refine_r r_limb margin) r_ranges).

(** merge_area.py:180-198 [_compute_in_mask], one pair of ranges *)
Definition in_mask (r_limb th_limb : list R) (rg tg : ival) : bool :=
  existsb (fun p => Rltb (fst rg) (fst p) && Rltb (fst p) (snd rg) && Rltb (fst tg) (snd p) && Rltb (snd p) (snd tg))
          (combine r_limb th_limb).

(** [jnp.isclose(a, b)] with the default tolerances *)
Definition isclose (a b : R) : bool := Rleb (Rabs (a - b)) (1e-8 + 1e-5 * Rabs b).
(** rows reordered by [jnp.argsort] (stable) of a boolean key *)
Definition sort_by {A} (key : A -> bool) (l : list A) : list A := ssort (fun a b => implb (key a) (key b)) l.

(** A row of the four-column matrix: radial range, angular range. *)
Definition region := (ival * ival)%type.
Definition ival_eqb (a b : ival) : bool := Reqb (fst a) (fst b) && Reqb (snd a) (snd b).
Definition region_eqb (a b : region) : bool := ival_eqb (fst a) (fst b) && ival_eqb (snd a) (snd b).
(** merge_area.py:211 *)
Definition same_r (a b : region) : bool := ival_eqb (fst a) (fst b) && negb (region_eqb a b).
(** merge_area.py:212-215 *)
Definition merged_th_min (rows : list region) (a : region) : R :=
  let s := sumR (map (fun b => if Reqb (fst (snd a)) 0 && same_r a b && Reqb (snd (snd b)) (2 * PI)
                               then fst (snd b) - 2 * PI else 0) rows) in
  if Reqb s 0 then fst (snd a) else s.
(** merge_area.py:218: the first conjunct does not depend on the row *)
Definition vanishes (rows : list region) (b : region) : bool :=
  existsb (fun a => existsb (same_r a) rows && Reqb (fst (snd a)) 0) rows && Reqb (snd (snd b)) (2 * PI).
(** merge_area.py:200-225 [_merge_final] *)
Definition merge_final (rows : list region) : list region :=
  sort_by (fun a : region => Reqb (snd (fst a)) 0)
    (map (fun a : region => if vanishes rows a then ((0, 0), (0, 0))
                            else (fst a, (merged_th_min rows a, snd (snd a)))) rows).

(** merge_area.py:74-114 [_refine_final], one region *)
Definition refine_region (limb : list (R * R)) (margin_r margin_th : R) (g : region) : region :=
  let '((r_min, r_max), (th_min, th_max)) := g in
  let cond_flip := Rltb (- PI) th_min && Rltb th_min 0 && Rltb 0 th_max && Rltb th_max PI in
  let th_new (t : R) := if cond_flip then (if Rltb PI t then t - 2 * PI else t) else t in
  let inside (p : R * R) := Rltb r_min (fst p) && Rltb (fst p) r_max &&
       (Rltb th_min (th_new (snd p)) && Rltb (th_new (snd p)) th_max && nonzero (th_new (snd p)) && nonzero (fst p)) in
  let r_min_ref := Rmax 0 (jmin (map (fun p => if inside p then fst p else 1e5) limb) - margin_r) in
  let r_max_0 := jmax (map (fun p => if inside p then fst p else 0) limb) in
  let r_max_ref := if Reqb r_max_0 0 then 0 else r_max_0 + margin_r in
  let th_min_ref := jmin (map (fun p => if inside p then th_new (snd p) else 1e5) limb) in
  let th_max_ref := jmax (map (fun p => if inside p then th_new (snd p) else -1e5) limb) in
  let case_org := Rltb 0 th_min || cond_flip in
  let r_min_new := if case_org then r_min_ref else r_min in
  let r_max_new := if case_org then r_max_ref else r_max in
  let th_min_new := (if case_org then th_min_ref else th_min) - margin_th in
  let th_max_new := (if case_org then th_max_ref else th_max) + margin_th in
  let empty := Reqb r_min_new 0 && Reqb r_max_new 0 in
  ((r_min_new, r_max_new), (if empty then 0 else th_min_new, if empty then 0 else th_max_new)).

(** [jnp.arctan2(y, x)] *)
Definition arctan2 (y x : R) : R :=
  if Rltb 0 x then atan (y / x)
  else if Rltb x 0 then (if Rleb 0 y then atan (y / x) + PI else atan (y / x) - PI)
  else if Rltb 0 y then PI / 2 else if Rltb y 0 then - PI / 2 else 0.
(** [jnp.mod(t, 2 pi)] of a value in (-pi, pi] *)
Definition mod_2pi (t : R) : R := if Rltb t 0 then t + 2 * PI else t.

(** merge_area.py:47-48 *)
Definition limb_polar (image_limb : list C) (mask_limb : list bool) : list (R * R) :=
  map (fun p => (Cmod (fst p * RtoC (b2R (snd p)))%C, mod_2pi (arctan2 (Im (fst p)) (Re (fst p))) * b2R (snd p)))
      (combine image_limb mask_limb).
(** merge_area.py:54-55 *)
Definition snap_th (t : R) : R :=
  let t1 := if isclose t 0 then 0 else t in if isclose t1 (2 * PI) then 2 * PI else t1.
(** merge_area.py:17-72 [define_regions] from line 49 on *)
Definition regions_of_limb (limb : list (R * R)) (rho : R) (bins_r bins_th : nat) (margin_r margin_th : R)
    (nimages_init nimage_real : nat) : option (list region) :=
  let r_limb := map fst limb in
  let th_limb := map snd limb in
  match cluster_1d r_limb bins_r nimages_init true, cluster_1d th_limb bins_th nimages_init false with
  | Some (r_mins, r_maxs), Some (th_mins, th_maxs) =>
    let r_map := combine r_mins r_maxs in
    let th_map := map (fun p => (snap_th (fst p), snap_th (snd p))) (combine th_mins th_maxs) in
    let r_map_refine := refine_addmargin_merge_r r_limb r_map (margin_r * rho) in
    let pairs := flat_map (fun rg => map (fun tg => (rg, tg)) th_map) r_map_refine in
    let mask (g : region) := b2R (in_mask r_limb th_limb (fst g) (snd g)) in
    let r_masked := map (fun g => (fst (fst g) * mask g, snd (fst g) * mask g)) pairs in
    let th_masked := map (fun g => (fst (snd g) * mask g, snd (snd g) * mask g)) pairs in
    let r_excess := firstn nimages_init (sort_by (fun rg : ival => isclose (snd rg) 0) r_masked) in
    let th_excess := firstn nimages_init (sort_by (fun tg : ival => isclose (snd tg) 0) th_masked) in
    let scan := firstn nimage_real (merge_final (combine r_excess th_excess)) in
    Some (map (refine_region limb (margin_r * rho) (margin_th * PI / 180)) scan)
  | _, _ => None
  end.
Definition define_regions (image_limb : list C) (mask_limb : list bool) (rho : R) (bins_r bins_th : nat)
    (margin_r margin_th : R) (nlenses : Z) : res (option (list region)) :=
  if (nlenses =? 2)%Z then Ok (regions_of_limb (limb_polar image_limb mask_limb) rho bins_r bins_th margin_r margin_th 10 5)
  else if (nlenses =? 3)%Z then Ok (regions_of_limb (limb_polar image_limb mask_limb) rho bins_r bins_th margin_r margin_th 18 9)
  else Raise ValueError.

Section WithSolver.
Variable poly_roots : list C -> option (list C) -> list C.
Local Open Scope C_scope.

(** [image.ravel()] of the array whose column i belongs to limb point i *)
Definition ravel_cols {A} (d : A) (nb : nat) (cols : list (list A)) : list A :=
  flat_map (fun b => map (fun col => nth b col d) cols) (seq 0 nb).
(** merge_area.py:260-297 [calc_source_limb], flattened *)
Definition limb_points (w_center : C) (rho : R) (Nlimb : nat) : list C :=
  map (fun t => w_center + RtoC rho * cexpi t) (linspace 0 (2 * PI) Nlimb).
Definition source_limb (images : C -> list C * list bool) (nimg : nat) (a q : R) (w_center : C) (rho : R) (Nlimb : nat)
  : list C * list bool :=
  let res := map (fun w => images (w - x_cm a q)) (limb_points w_center rho Nlimb) in
  (map (fun z => z + x_cm a q) (ravel_cols (RtoC 0) nimg (map fst res)), ravel_cols false nimg (map snd res)).
Definition calc_source_limb (nlenses : Z) (p : params) (w_center : C) (rho : R) (Nlimb : nat) : res (list C * list bool) :=
  if (nlenses =? 2)%Z then
    getp (p_s p) (fun s => getp (p_q p) (fun q =>
      let a := (0.5 * s)%R in let e1 := (q / (1 + q))%R in
      Ok (source_limb (fun w => images2 poly_roots a e1 w None) 5 a q w_center rho Nlimb)))
  else if (nlenses =? 3)%Z then
    getp (p_s p) (fun s => getp (p_q p) (fun q => getp (p_q3 p) (fun q3 => getp (p_r3 p) (fun r3 => getp (p_psi p) (fun psi =>
      let a := (0.5 * s)%R in
      let e1 := (q / (1 + q + q3))%R in let e2 := (1 / (1 + q + q3))%R in
      Ok (source_limb (images3 poly_roots a r3 psi e1 e2) 10 a q w_center rho Nlimb))))))
  else Raise ValueError.
End WithSolver.
