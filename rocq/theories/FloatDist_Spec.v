(** Distances. *)
Require Import ZArith Reals List.
From Flocq Require Import Core BinarySingleNaN.
Require Import Verif.Point_Model Verif.Curve_Spec Verif.Float_Model Verif.Float_Spec.
Open Scope R_scope.

(** Euclid's distance of the places. *)
Definition apart (p q : fpt) : R := sqrt ((px (place p) - px (place q)) ^ 2 + (py (place p) - py (place q)) ^ 2).
(** The length of a polyline. *)
Fixpoint walked (p : fpt) (l : list fpt) : R := match l with nil => 0 | q :: r => apart p q + walked q r end.
(** The coordinates are at most 2^500. *)
Definition moderate (p : fpt) : Prop := within (bpow radix2 500) p.
(** The number nearest to r. *)
Definition nearest (r : R) : R := round radix2 (FLT_exp (-1074) 53) ZnearestE r.
(** x is reached when the distance s is walked from p along the lines to the points of l. *)
Inductive along : fpt -> list fpt -> R -> pt -> Prop :=
| along_here : forall p q r f, 0 <= f <= 1 -> along p (q :: r) (f * apart p q) (mix f (place p) (place q))
| along_further : forall p q r s x, along q r s x -> along p (q :: r) (apart p q + s) x.
