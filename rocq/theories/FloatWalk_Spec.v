(** Positions along a path. *)
Require Import Reals List.
From Flocq Require Import Core BinarySingleNaN.
Require Import Verif.Float_Model Verif.Float_Spec.
Open Scope R_scope.

(** The lengths added up. *)
Fixpoint total (l : list fl) : R := match l with nil => 0 | x :: r => value x + total r end.
(** The fraction of the whole length that lies before the fraction [p] of the segment [i]. *)
Definition reached (l : list fl) (i : nat) (p : R) : R := (total (firstn i l) + p * value (nth i l (fz 0))) / total l.
(** Lengths: finite numbers that are not negative; no overflow when they are added up. *)
Definition lengths_ok (l : list fl) : Prop := Forall (fun x => finite x /\ 0 <= value x) l /\ total l <= bpow radix2 1000.
