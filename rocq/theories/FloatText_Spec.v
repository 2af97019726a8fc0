(** Which numbers are written in a form that is read back, and what reading is to give. *)
Require Import Reals ZArith QArith Qabs.
From Flocq Require Import Core.
Require Import Verif.Base Verif.Float_Model Verif.Float_Spec Verif.FloatView_Model Verif.PointText_Spec.
Open Scope R_scope.

(** y is a finite float, and no float is nearer to r. *)
Definition reads (r : R) (y : fl) : Prop := finite y /\ forall z, finite z -> Rabs (value y - r) <= Rabs (value z - r).
(** Numbers that Point.__str__ writes without an exponent, or with one that does not end in 0. *)
Definition tame (q : Q) : Prop := plain q \/ exists d, scientific d q.
Definition good_coord (x : fl) : Prop :=
  finite x /\ (value x = 0 \/ bpow radix2 (-1000) <= Rabs (value x) <= bpow radix2 1000) /\ tame (f2q x).
