(** What a path element draws. *)
Require Import Reals QArith Qreals Qcanon Ascii String List Bool.
Require Import Verif.Point_Model Verif.Curve_Model Verif.Curve_Spec Verif.Arc_Spec Verif.PathText_Spec.
Import ListNotations.
Open Scope R_scope.

Definition rpt (p : Qc * Qc) : pt := P (Q2R (this (fst p))) (Q2R (this (snd p))).
(** SVG's elliptical arc with the given end points, radii, rotation in degrees and flags: the radii are enlarged just so
    much that an ellipse through both points exists. *)
Definition svg_arc (s e : pt) (rx ry rot : R) (large sweep : bool) (f : R -> pt) : Prop :=
  exists c k t0 sw, 1 <= k /\ (forall j, 1 <= j < k -> ~ fits s e (j * rx) (j * ry) (in_radians rot)) /\
    runs f c (k * rx) (k * ry) (in_radians rot) t0 sw /\ f 0 = s /\ f 1 = e /\
    (if sweep then 0 < sw < 2 * PI else - (2 * PI) < sw < 0) /\ (if large then PI <= Rabs sw else Rabs sw <= PI).
(** Where a segment of a drawing is at parameter [t]; a move draws nothing. *)
Definition traces (d : drawn) (t : R) (p : pt) : Prop :=
  match d with
  | SMove _ _ => False
  | SLine a b | SClose a b => p = mix t (rpt a) (rpt b)
  | SQuad a c b => p = casteljau2 (rpt a) (rpt c) (rpt b) t
  | SCubic a c d b => p = casteljau3 (rpt a) (rpt c) (rpt d) (rpt b) t
  | SArc a rx ry rot large sweep b =>
      exists f, svg_arc (rpt a) (rpt b) (Q2R (this rx)) (Q2R (this ry)) (Q2R (this rot)) large sweep f /\ p = f t
  end.
(** On each axis of a cubic curve the third difference is not tiny or the curve does not turn inside; arcs have positive
    radii and end points that are told apart. *)
Definition steady (a0 a1 a2 a3 : R) : Prop :=
  / 10 ^ 12 <= Rabs (a0 - 3 * a1 + 3 * a2 - a3) \/ (forall c, 0 < c < 1 -> ~ stationary a0 a1 a2 a3 c).
Definition fair (d : drawn) : Prop :=
  match d with
  | SCubic a c e b =>
      steady (px (rpt a)) (px (rpt c)) (px (rpt e)) (px (rpt b)) /\ steady (py (rpt a)) (py (rpt c)) (py (rpt e)) (py (rpt b))
  | SArc a rx ry _ _ _ b => 0 < Q2R (this rx) /\ 0 < Q2R (this ry) /\ ~ p_eq (rpt a) (rpt b)
  | _ => True
  end.
(** The ends of moves. *)
Definition move_end (d : drawn) (p : pt) : Prop :=
  match d with SMove f t => p = rpt t \/ exists a, f = Some a /\ p = rpt a | _ => False end.
(** Points that a box should contain: of what is drawn, and ends of moves. *)
Definition marks (ds : list drawn) (p : pt) : Prop := exists d, In d ds /\ ((exists t, 0 <= t <= 1 /\ traces d t p) \/ move_end d p).
