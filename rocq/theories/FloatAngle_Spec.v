(** Directions and units of angles. *)
Require Import ZArith Reals.
From Flocq Require Import Core BinarySingleNaN.
Require Import Verif.Float_Model Verif.Float_Spec.
Open Scope R_scope.

(** x is v but for a relative error of e. *)
Definition nearly (x : fl) (v e : R) : Prop := finite x /\ Rabs (value x - v) <= e * Rabs v.
(** Numbers that are zero or neither tiny nor huge. *)
Definition ordinary (x : fl) : Prop := finite x /\ (value x = 0 \/ bpow radix2 (-900) <= Rabs (value x) <= bpow radix2 900).
(** Two numbers of radians that are the same direction, but for e. *)
Definition same_way (a b e : R) : Prop := exists k : Z, Rabs (a - b - 2 * PI * IZR k) <= e.
(** The direction a, as the part of a turn that is over. *)
Definition heading (a h : R) : Prop := 0 <= h < 2 * PI /\ exists k : Z, a = h + 2 * PI * IZR k.
