(** Independent specification for points: Euclidean distance as a relation, midpoints, powers. *)
Require Import Reals.
Open Scope R_scope.

(** [d] is the Euclidean distance of (x1,y1) and (x2,y2). *)
Definition euclid (x1 y1 x2 y2 d : R) : Prop := 0 <= d /\ d ^ 2 = (x1 - x2) ^ 2 + (y1 - y2) ^ 2.
Definition midpoint (x1 y1 x2 y2 mx my : R) : Prop := 2 * mx = x1 + x2 /\ 2 * my = y1 + y2.
(** Powers of x+iy by repeated multiplication. *)
Fixpoint cpow (x y : R) (n : nat) : R * R :=
  match n with
  | O => (1, 0)
  | S k => let '(a, b) := cpow x y k in (a * x - b * y, a * y + b * x)
  end.
