(** How far curves are from an ellipse. *)
Require Import Reals.
Require Import Verif.Point_Model Verif.Arc_Spec.
Open Scope R_scope.

(** [p] lies on the ellipse with [k] times the radii. *)
Definition at_size (c : pt) (rx ry rot : R) (p : pt) (k : R) : Prop :=
  0 < k /\ on_ellipse c (k * rx) (k * ry) rot p.
