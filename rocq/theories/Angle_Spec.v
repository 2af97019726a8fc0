(** Independent specification for angles: CSS angle units as fractions of a full circle. *)
Require Import Reals String.
Open Scope R_scope.

(** How many of the unit make a full circle; the unit-less number counts degrees. *)
Inductive circle : string -> R -> Prop :=
| circ_deg : circle "deg" 360
| circ_grad : circle "grad" 400
| circ_rad : circle "rad" (2 * PI)
| circ_turn : circle "turn" 1
| circ_pct : circle "%" 100
| circ_none : circle "" 360.

(** Angles (in radians) that are the same direction. *)
Definition same_direction (a b : R) : Prop := exists k : Z, a = b + 2 * PI * IZR k.
