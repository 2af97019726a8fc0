(** Specification of outlines. *)
Require Import Reals List.
Require Import Verif.Point_Model Verif.Arc_Model Verif.Arc_Spec Verif.Shape_Model.
Import ListNotations.
Open Scope R_scope.

Definition o_end (s : oseg) : pt := match s with OMove e => e | OLine _ e => e | OArc a => a_end a | OClose _ e => e end.
Definition o_start (s : oseg) : option pt := match s with OMove _ => None | OLine s _ => Some s | OArc a => Some (a_start a) | OClose s _ => Some s end.
(** Every segment starts where the one before ended. *)
Fixpoint joined (p : pt) (l : list oseg) : Prop := match l with [] => True | s :: r => o_start s = Some p /\ joined (o_end s) r end.
Definition connected (l : list oseg) : Prop := match l with OMove e :: r => joined e r | _ => False end.
(** One subpath that ends with a line to its first point. *)
Definition closed_at (l : list oseg) : Prop := exists p r s, l = OMove p :: r ++ [OClose s p].
(** The ends of the segments in order. *)
Definition corners (l : list oseg) : list pt := map o_end l.
(** A segment that is an arc runs along an ellipse with axes along x and y. *)
Definition arc_on (A : arc) (c : pt) (rx ry t0 sweep : R) : Prop :=
  arc_point A 0 = a_start A /\ arc_point A 1 = a_end A /\ forall t, arc_point A t = P (px c + rx * cos (t0 + t * sweep)) (py c + ry * sin (t0 + t * sweep)).
