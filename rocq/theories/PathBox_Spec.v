(** What a box around several segments should be. *)
Require Import Reals List.
Require Import Verif.Point_Model Verif.Curve_Model Verif.Curve_Spec Verif.Arc_Model Verif.Arc_Spec Verif.PathBox_Model.
Import ListNotations.
Open Scope R_scope.

(** [a] lies inside [b]. *)
Definition box_in (a b : box) : Prop := xmin b <= xmin a /\ ymin b <= ymin a /\ xmax a <= xmax b /\ ymax a <= ymax b.
(** The smallest box around some boxes. *)
Definition union_box (l : list box) (b : box) : Prop :=
  (forall a, In a l -> box_in a b) /\ (forall c, (forall a, In a l -> box_in a c) -> box_in b c).
Definition in_box (b : box) (p : pt) : Prop := xmin b <= px p <= xmax b /\ ymin b <= py p <= ymax b.
(** Where a segment draws at parameter [t]. *)
Definition drawn_at (np : bool) (s : aseg) (t : R) (p : pt) : Prop :=
  match s with
  | ASeg (GMove _ _) => False
  | ASeg g => p = point np g t
  | AArc A => p = arc_point A t
  end.
(** Cubic curves whose third differences are not tiny, and arcs of ellipses. *)
Definition tame (s : aseg) : Prop :=
  match s with
  | ASeg (GCubic a c d b) =>
      / 10 ^ 12 <= Rabs (px a - 3 * px c + 3 * px d - px b) /\ / 10 ^ 12 <= Rabs (py a - 3 * py c + 3 * py d - py b)
  | AArc A => a_sweep A <> 0 /\ exists t0, proper_at A t0
  | _ => True
  end.
(** The points in positions [i] to [j] of a list, both included. *)
Definition positions {A} (p : list A) (i j : nat) (s : A) : Prop := exists k, (i <= k <= j)%nat /\ nth_error p k = Some s.
