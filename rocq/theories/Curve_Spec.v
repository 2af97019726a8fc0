(** Specifications for the geometry of segments. *)
Require Import Reals List.
Require Import Verif.Point_Model Verif.Matrix_Model Verif.Curve_Model.
From Coquelicot Require Import Coquelicot.
Import ListNotations.
Open Scope R_scope.

(** De Casteljau's construction: repeated interpolation. *)
Definition mix (t : R) (p q : pt) : pt := P ((1 - t) * px p + t * px q) ((1 - t) * py p + t * py q).
Definition casteljau2 (a c b : pt) (t : R) : pt := mix t (mix t a c) (mix t c b).
Definition casteljau3 (a c d b : pt) (t : R) : pt := mix t (casteljau2 a c d t) (casteljau2 c d b t).
(** Between the smallest and the largest of some numbers. *)
Definition among (l : list R) (v : R) : Prop := exists lo hi, In lo l /\ In hi l /\ lo <= v <= hi.
(** Euclidean distance. *)
Definition dist (p q : pt) : R := sqrt ((px p - px q) ^ 2 + (py p - py q) ^ 2).
(** Length of the polygon through the points. *)
Fixpoint polygon (p : pt) (l : list pt) : R := match l with [] => 0 | q :: r => dist p q + polygon q r end.
(** The speed of a moving point, and the length of its way from t = 0 to t = 1. *)
Definition speed (f : R -> pt) (t : R) : R :=
  sqrt ((Derive (fun u => px (f u)) t) ^ 2 + (Derive (fun u => py (f u)) t) ^ 2).
Definition arc_length (f : R -> pt) (l : R) : Prop := is_RInt (speed f) 0 1 l.
(** Parameters that go up from [s] to [e] in steps of at most [h]. *)
Fixpoint steps (h s : R) (ts : list R) (e : R) : Prop :=
  match ts with [] => s = e | t :: r => s < t <= s + h /\ steps h t r e end.
(** The points that define a segment. *)
Definition controls (s : gseg) : list pt :=
  match s with
  | GMove _ e => [e] | GLine a b | GClose a b => [a; b] | GQuad a c b => [a; c; b] | GCubic a c d b => [a; c; d; b]
  end.
(** [lo, hi] is the range of [f] on [0, 1]. *)
Definition range (f : R -> R) (lo hi : R) : Prop :=
  (forall t, 0 <= t <= 1 -> lo <= f t <= hi) /\
  (exists t, 0 <= t <= 1 /\ f t = lo) /\ (exists t, 0 <= t <= 1 /\ f t = hi).
(** Where the derivative of the Bezier polynomial with these coefficients is zero. *)
Definition stationary (a0 a1 a2 a3 c : R) : Prop :=
  (a0 - 3 * a1 + 3 * a2 - a3) * (c * c) - 2 * (a0 - 2 * a1 + a2) * c + (a0 - a1) = 0.
(** The largest bend: the second differences of the control points. *)
Definition bend (a c d : pt) : R := dist (P (px a - 2 * px c + px d) (py a - 2 * py c + py d)) (P 0 0).
(** The linear map and shift of a matrix. *)
Definition affine (m : mx) (p : pt) : pt := P (ma m * px p + mc m * py p + me m) (mb m * px p + md m * py p + mf m).
(** Segments that draw something. *)
Definition draws (s : gseg) : Prop := match s with GMove _ _ => False | _ => True end.
