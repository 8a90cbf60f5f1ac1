(** Specification side of the contour integrals and of segment handling: shoelace area,
    packed buffers, runs of a track.  No microjax code here. *)
From Coq Require Import Reals Bool List Arith ZArith.
From Coquelicot Require Import Complex.
Import ListNotations.
Local Open Scope R_scope.

Definition cross (p q : C) : R := Re p * Im q - Re q * Im p.

(** half the sum of cross products of consecutive points; for a closed list (first = last) this
    is the signed area of the polygon *)
Fixpoint shoelace (l : list C) : R :=
  match l with
  | p :: ((q :: _) as t) => cross p q / 2 + shoelace t
  | _ => 0
  end.

Definition closed_list (l : list C) : Prop := hd (RtoC 0) l = last l (RtoC 0).

(** the [n] vertices of a regular polygon, first one repeated at the end *)
Definition ngon (c : C) (r : R) (n : nat) : list C :=
  map (fun i => (Re c + r * cos (2 * PI * INR i / INR n), Im c + r * sin (2 * PI * INR i / INR n)))
      (seq 0 (S n)).

(** a buffer of [n] slots holding [l] followed by zeros *)
Definition packed {A} (d : A) (n : nat) (l : list A) : list A := l ++ repeat d (n - length l).

(** ** tracks *)
Definition sample (z : list C) (par mask : list R) (i : nat) : C * R * R :=
  (nth i z (RtoC 0), nth i par 0, nth i mask 0).
Definition no_sample : C * R * R := (RtoC 0, 0, 0).
(** samples [i-1] and [i] cannot belong to the same image curve *)
Definition track_break (z : list C) (par : list R) (i : nat) : Prop :=
  (0.1 < Cmod (nth i z (RtoC 0) - nth (i - 1) z (RtoC 0))%C \/ nth i par 0 <> nth (i - 1) par 0).
(** a new uniform piece begins at sample [i] *)
Definition piece_begins (z : list C) (par mask : list R) (i : nat) : Prop :=
  nth i mask 0 = 1 /\ (i = 0%nat \/ nth (i - 1) mask 0 = 0 \/ track_break z par i).

(** ** open segments and contours: a piece is a list of points with their parities *)
Definition piece : Type := (list C * list R)%type.
Definition flip (p : piece) : piece := (rev (fst p), map Ropp (rev (snd p))).
(** an image curve sampled with gaps of at most [g], away from the origin, of one parity *)
Record image_curve (g : R) (p : piece) : Prop := {
  ic_two : (2 <= length (fst p))%nat;
  ic_away : forall q, In q (fst p) -> 1e-5 <= Cmod q;
  ic_parity : exists s, (s = 1 \/ s = -1) /\ snd p = repeat s (length (fst p));
  ic_gap : forall i, (S i < length (fst p))%nat ->
             Cmod (nth (S i) (fst p) (RtoC 0) - nth i (fst p) (RtoC 0))%C <= g }.
(** a contour put together from pieces, each forward ([false]) or reversed ([true]) *)
Definition orient (pb : piece * bool) : piece := if snd pb then flip (fst pb) else fst pb.
Definition assemble (u : list (piece * bool)) : piece :=
  (concat (map (fun pb => fst (orient pb)) u), concat (map (fun pb => snd (orient pb)) u)).

(** ** which segments are joined (C68) *)
Fixpoint path_length (l : list C) : R :=
  match l with p :: ((q :: _) as t) => Cmod (q - p)%C + path_length t | _ => 0 end.
(** the last stretch of a list of points towards its head, outer point second; a doubled first point is skipped *)
Definition head_line (l : list C) : C * C :=
  match l with
  | a :: b :: c :: _ => if Rle_dec (Cmod (b - a)%C) 1e-5 then (c, b) else (b, a)
  | a :: b :: _ => (b, a)
  | _ => (RtoC 0, RtoC 0)
  end.
Definition tail_line (l : list C) : C * C := head_line (rev l).
(** two stretches meet: their outer points coincide, or lie within 0.1 of each other, face each other, and going from
    one to the other turns by less than 60 degrees *)
Definition meets (l1 l2 : C * C) : Prop :=
  let d1 := (snd l1 - fst l1)%C in let d2 := (snd l2 - fst l2)%C in let gap := Cmod (snd l1 - snd l2)%C in
  gap < 1e-5 \/ (gap < 0.1 /\ gap < Cmod (fst l1 - fst l2)%C /\
                 Re d1 * Re d2 + Im d1 * Im d2 < - (1 / 2) * (Cmod d1 * Cmod d2)).
(** piece [q] continues piece [p]: 0 tail to head, 1 head to tail, 2 head to head, 3 tail to tail; in the last two [q]
    is reversed, so the parities must differ *)
Definition parity (p : piece) : R := hd 0 (snd p).
Definition continues (c : nat) (p q : piece) : Prop :=
  match c with
  | 0%nat => parity p = parity q /\ meets (tail_line (fst p)) (head_line (fst q))
  | 1%nat => parity p = parity q /\ meets (head_line (fst p)) (tail_line (fst q))
  | 2%nat => parity p = - parity q /\ meets (head_line (fst p)) (head_line (fst q))
  | 3%nat => parity p = - parity q /\ meets (tail_line (fst p)) (tail_line (fst q))
  | _ => False
  end.
(** distance between the ends that would be joined; an empty slot counts as a point at the origin *)
Definition end_gap (c : nat) (p : piece) (o : option piece) : R :=
  let h l := hd (RtoC 0) l in let t l := last l (RtoC 0) in
  let q := match o with Some q => fst q | None => [] end in
  match c with
  | 0%nat => Cmod (t (fst p) - h q)%C
  | 1%nat => Cmod (h (fst p) - t q)%C
  | 2%nat => Cmod (h (fst p) - h q)%C
  | _ => Cmod (t (fst p) - t q)%C
  end.
