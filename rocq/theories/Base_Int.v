(** Riemann integral lemmas specialised to real-valued functions. Library code, no microjax content. *)
From Coq Require Import Reals Lra.
From Coquelicot Require Import Coquelicot.
Local Open Scope R_scope.

Lemma exI_cont (f : R -> R) a b : (forall x, Rmin a b <= x <= Rmax a b -> continuous f x) -> ex_RInt f a b.
Proof. exact (ex_RInt_continuous (V := R_CompleteNormedModule) f a b). Qed.
Lemma I_correct (f : R -> R) a b : ex_RInt f a b -> is_RInt f a b (RInt f a b).
Proof. exact (RInt_correct (V := R_CompleteNormedModule) f a b). Qed.
Lemma I_unique (f : R -> R) a b v : is_RInt f a b v -> RInt f a b = v.
Proof. exact (is_RInt_unique (V := R_CompleteNormedModule) f a b v). Qed.
Lemma I_scal (f : R -> R) a b c : ex_RInt f a b -> RInt (fun x => c * f x) a b = c * RInt f a b.
Proof. exact (RInt_scal (V := R_CompleteNormedModule) f a b c). Qed.
Lemma exI_scal (f : R -> R) a b c : ex_RInt f a b -> ex_RInt (fun x => c * f x) a b.
Proof. exact (ex_RInt_scal (V := R_NormedModule) f a b c). Qed.
Lemma I_plus (f g : R -> R) a b : ex_RInt f a b -> ex_RInt g a b -> RInt (fun x => f x + g x) a b = RInt f a b + RInt g a b.
Proof. exact (RInt_plus (V := R_CompleteNormedModule) f g a b). Qed.
Lemma exI_plus (f g : R -> R) a b : ex_RInt f a b -> ex_RInt g a b -> ex_RInt (fun x => f x + g x) a b.
Proof. exact (ex_RInt_plus (V := R_NormedModule) f g a b). Qed.
Lemma I_ext (f g : R -> R) a b : (forall x, Rmin a b < x < Rmax a b -> f x = g x) -> RInt f a b = RInt g a b.
Proof. exact (RInt_ext (V := R_CompleteNormedModule) f g a b). Qed.
Lemma exI_ext (f g : R -> R) a b : (forall x, Rmin a b < x < Rmax a b -> f x = g x) -> ex_RInt f a b -> ex_RInt g a b.
Proof. exact (ex_RInt_ext (V := R_NormedModule) f g a b). Qed.
Lemma I_chasles (f : R -> R) a b c : ex_RInt f a b -> ex_RInt f b c -> RInt f a b + RInt f b c = RInt f a c.
Proof. exact (RInt_Chasles (V := R_CompleteNormedModule) f a b c). Qed.
Lemma I_point (f : R -> R) a : RInt f a a = 0.
Proof. exact (RInt_point (V := R_CompleteNormedModule) a f). Qed.
Lemma I_const a b (c : R) : RInt (fun _ => c) a b = (b - a) * c.
Proof. exact (RInt_const (V := R_CompleteNormedModule) a b c). Qed.
Lemma I_lin (f : R -> R) k c a b : ex_RInt f (k * a + c) (k * b + c) ->
  RInt (fun y => k * f (k * y + c)) a b = RInt f (k * a + c) (k * b + c).
Proof. exact (RInt_comp_lin (V := R_CompleteNormedModule) f k c a b). Qed.
Lemma exI_lin (f : R -> R) k c a b : ex_RInt f (k * a + c) (k * b + c) -> ex_RInt (fun y => k * f (k * y + c)) a b.
Proof. exact (ex_RInt_comp_lin (V := R_NormedModule) f k c a b). Qed.
Lemma I_swap (f : R -> R) a b : ex_RInt f a b -> - RInt f a b = RInt f b a.
Proof. exact (opp_RInt_swap (V := R_CompleteNormedModule) f a b). Qed.
(** fundamental theorem *)
Lemma I_derive (F f : R -> R) a b : (forall x, Rmin a b <= x <= Rmax a b -> is_derive F x (f x)) ->
  (forall x, Rmin a b <= x <= Rmax a b -> continuous f x) -> is_RInt f a b (F b - F a).
Proof. exact (is_RInt_derive (V := R_CompleteNormedModule) F f a b). Qed.
Lemma cont_derivable (f : R -> R) x : derivable_pt f x -> continuous f x.
Proof. intros H. apply continuity_pt_filterlim, derivable_continuous_pt, H. Qed.
Lemma cont_is_derive (f : R -> R) x l : is_derive f x l -> continuous f x.
Proof. intros H. apply (ex_derive_continuous (V := R_NormedModule) f). exists l; exact H. Qed.
