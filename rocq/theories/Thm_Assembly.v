(** Property theorems C01-C04: light-curve assembly. *)
From Coq Require Import Reals List Arith ZArith Lia Lra.
From Verif Require Import Base_R Base_List M_Assembly S_Assembly P_Assembly.
Import ListNotations.
Local Open Scope nat_scope.

(** ** C01 *)
Theorem C01_mag_binary_assembly : forall (W M : Type) (wpad : W) (dM : M) full w_points mu_multi test max_full chunk,
  chunk <> 0 -> length mu_multi = length w_points -> length test = length w_points ->
  exists out, assemble wpad dM full w_points mu_multi test max_full chunk = Ok out /\
    length out = length w_points /\
    forall i, i < length w_points ->
      nth i out dM = expected_mag full (fun j => nth j w_points wpad) (fun j => nth j mu_multi dM)
                       (fun j => nth j test false) (slice_keep max_full (length w_points)) i.
Proof. exact @assemble_slice. Qed.
Theorem C01_full_budget : forall (W M : Type) (wpad : W) (dM : M) full w_points mu_multi test max_full chunk,
  chunk <> 0 -> length mu_multi = length w_points -> length test = length w_points ->
  (Z.of_nat (length w_points) <= max_full)%Z ->
  exists out, assemble wpad dM full w_points mu_multi test max_full chunk = Ok out /\
    forall i, i < length w_points ->
      nth i out dM = if nth i test false then nth i mu_multi dM else full (nth i w_points wpad).
Proof. exact @assemble_full_budget. Qed.
(** MAX_FULL_CALLS = 0 gives the pure hexadecapole curve *)
Theorem C01_no_budget : forall (W M : Type) (wpad : W) (dM : M) full w_points mu_multi test chunk,
  chunk <> 0 -> length mu_multi = length w_points -> length test = length w_points ->
  assemble wpad dM full w_points mu_multi test 0 chunk = Ok mu_multi.
Proof. exact @assemble_no_budget. Qed.
(** never more than the budget of positions gets the full value *)
Theorem C01_budget_respected : forall (W M : Type) (wpad : W) (dM : M) full w_points mu_multi test (max_full : nat) chunk,
  chunk <> 0 -> length mu_multi = length w_points -> length test = length w_points ->
  exists out changed, assemble wpad dM full w_points mu_multi test (Z.of_nat max_full) chunk = Ok out /\
    length changed <= max_full /\
    forall i, i < length w_points -> ~ In i changed -> nth i out dM = nth i mu_multi dM.
Proof. exact @assemble_budget. Qed.
Example C01_example :
  assemble 0 0 (fun w => 100 + w) [1;2;3;4;5] [10;20;30;40;50] [true;false;false;true;false] 2 2
  = Ok [10;102;103;40;50].
Proof. vm_compute. reflexivity. Qed.

(** ** C02 *)
Theorem C02_mag_triple_assembly : forall (W M : Type) (wpad : W) (dM : M) full w_points mu_multi max_full chunk,
  chunk <> 0 -> length mu_multi = length w_points ->
  exists out, assemble wpad dM full w_points mu_multi (all_false w_points) max_full chunk = Ok out /\
    length out = length w_points /\
    forall i, i < length w_points ->
      nth i out dM = if i <? slice_keep max_full (length w_points)
                     then full (nth i w_points wpad) else nth i mu_multi dM.
Proof. exact @assemble_triple_slice. Qed.
Example C02_example :
  assemble 0 0 (fun w => 100 + w) [1;2;3;4] [10;20;30;40] (all_false [1;2;3;4]) 3 2 = Ok [101;102;103;40].
Proof. vm_compute. reflexivity. Qed.

(** ** C03 *)
Theorem C03_chunked_is_map : forall (A B : Type) (pad : A) (f : A -> B) data k,
  k <> 0 -> chunked_vmap pad f data k = Ok (map f data).
Proof. exact @chunked_vmap_spec. Qed.
Theorem C03_scan_is_map : forall (A B : Type) (pad : A) (f : A -> B) data k,
  k <> 0 -> chunked_vmap_scan pad f data k = Ok (map f data).
Proof. exact @chunked_vmap_scan_spec. Qed.
Theorem C03_light_curve_chunk_independent : forall (W M : Type) (wpad : W) (dM : M) full w_points mu_multi test max_full k1 k2,
  k1 <> 0 -> k2 <> 0 ->
  assemble wpad dM full w_points mu_multi test max_full k1 =
  assemble wpad dM full w_points mu_multi test max_full k2.
Proof. exact @assemble_chunk_indep. Qed.
Theorem C03_chunk_zero_raises : forall (W M : Type) (wpad : W) (dM : M) full w_points mu_multi test max_full,
  assemble wpad dM full w_points mu_multi test max_full 0 = Raise ZeroDivisionError.
Proof. exact @assemble_chunk_zero. Qed.
Example C03_example : chunked_vmap 0 (fun x => x * x) [1;2;3;4;5] 3 = Ok [1;4;9;16;25].
Proof. vm_compute. reflexivity. Qed.
Example C03_scan_example : chunked_vmap_scan 0 (fun x => x * x) [1;2;3;4;5] 3 = Ok [1;4;9;16;25].
Proof. vm_compute. reflexivity. Qed.

(** ** C04 *)
Theorem C04_magnifications_select : forall (W M : Type) (full : W -> M) (dM : M) (dW : W) test mu w,
  length test = length w -> length mu = length w ->
  length (cond_map full test mu w) = length w /\
  forall i, i < length w -> nth i (cond_map full test mu w) dM = if nth i test false then nth i mu dM else full (nth i w dW).
Proof. exact @cond_map_spec. Qed.
Example C04_example : cond_map (fun w => 100 + w) [true;false;true] [1;2;3] [7;8;9] = [1;108;3].
Proof. reflexivity. Qed.

Print Assumptions C01_mag_binary_assembly.
Print Assumptions C01_full_budget.
Print Assumptions C01_no_budget.
Print Assumptions C01_budget_respected.
Print Assumptions C02_mag_triple_assembly.
Print Assumptions C03_chunked_is_map.
Print Assumptions C03_light_curve_chunk_independent.
Print Assumptions C03_chunk_zero_raises.
Print Assumptions C04_magnifications_select.
