(** Specification of elliptical arcs. *)
Require Import Reals List.
Require Import Verif.Point_Model Verif.Matrix_Model Verif.Curve_Model Verif.Arc_Model.
Import ListNotations.
Open Scope R_scope.

(** The point with coordinates [x], [y] in a frame at [c] turned by [rot]. *)
Definition frame (c : pt) (rot x y : R) : pt := P (px c + cos rot * x - sin rot * y) (py c + sin rot * x + cos rot * y).
(** The ellipse with centre [c], radii [rx], [ry] and turned by [rot]. *)
Definition on_ellipse (c : pt) (rx ry rot : R) (p : pt) : Prop :=
  exists x y, p = frame c rot x y /\ (x / rx) ^ 2 + (y / ry) ^ 2 = 1.
(** Its points by eccentric angle. *)
Definition ellipse_at (c : pt) (rx ry rot t : R) : pt := frame c rot (rx * cos t) (ry * sin t).
(** There is an ellipse of these radii and this rotation through both points. *)
Definition fits (p q : pt) (rx ry rot : R) : Prop := exists c, on_ellipse c rx ry rot p /\ on_ellipse c rx ry rot q.
(** Half a turn in degrees and radians. *)
Definition in_radians (d : R) : R := d * PI / 180.
(** [f] runs along the ellipse at a constant rate of the eccentric angle, from [t0] over [sweep]. *)
Definition runs (f : R -> pt) (c : pt) (rx ry rot t0 sweep : R) : Prop := forall t, f t = ellipse_at c rx ry rot (t0 + t * sweep).
(** The velocity of [ellipse_at] in the eccentric angle. *)
Definition ellipse_vel (rx ry rot t : R) : pt := frame (P 0 0) rot (- rx * sin t) (ry * cos t).
(** [p] moved [k] times along [v]. *)
Definition along (p v : pt) (k : R) : pt := P (px p + k * px v) (py p + k * py v).
(** Consecutive segments from [p] to [q]. *)
Fixpoint chain (p : pt) (l : list gseg) (q : pt) : Prop :=
  match l with [] => p = q | g :: r => g_start g = Some p /\ chain (g_end g) r q end.
(** A proper arc: start and end lie on its ellipse, at the eccentric angles [t0] and [t0] plus the sweep. *)
Definition proper_at (A : arc) (t0 : R) : Prop :=
  0 < arx A /\ 0 < ary A /\
  a_start A = ellipse_at (a_center A) (arx A) (ary A) (rotation A) t0 /\
  a_end A = ellipse_at (a_center A) (arx A) (ary A) (rotation A) (t0 + a_sweep A).
(** The second axis is a quarter turn after the first. *)
Definition right_handed (A : arc) : Prop := a_pry A = polar (a_center A) (rotation A + PI / 2) (ary A).
(** Determinant of the linear part; scalar product of two points seen from [c]. *)
Definition det (m : mx) : R := ma m * md m - mb m * mc m.
Definition dotp (c p q : pt) : R := (px p - px c) * (px q - px c) + (py p - py c) * (py q - py c).
(** Twice the signed area of a triangle: positive where p, q, r turn in the direction of growing angles. *)
Definition turn (p q r : pt) : R := (px q - px p) * (py r - py q) - (py q - py p) * (px r - px q).
