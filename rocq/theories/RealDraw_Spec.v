(** What drawings with arcs on the reals are compared by. *)
Require Import Reals Qreals Qcanon List.
Require Import Verif.Point_Model Verif.Curve_Model Verif.Curve_Spec Verif.Arc_Spec Verif.PathText_Spec Verif.PathElem_Spec.
Open Scope R_scope.

(** Arcs have positive radii and end points that are told apart. *)
Definition fair_arc (d : drawn) : Prop :=
  match d with SArc a rx ry _ _ _ b => 0 < Q2R (this rx) /\ 0 < Q2R (this ry) /\ ~ p_eq (rpt a) (rpt b) | _ => True end.
(** The radii of arcs, enlarged just so much that an ellipse through both points exists, are up to [r]. *)
Definition sized (r : R) (d : drawn) : Prop :=
  match d with
  | SArc a rx ry rot _ _ b =>
      forall k, let at_k j := fits (rpt a) (rpt b) (j * Q2R (this rx)) (j * Q2R (this ry)) (in_radians (Q2R (this rot))) in
        1 <= k -> at_k k -> (forall j, 1 <= j < k -> ~ at_k j) -> k * Q2R (this rx) <= r /\ k * Q2R (this ry) <= r
  | _ => True
  end.
(** [x] is a point of the drawing. *)
Definition drawn_at (ds : list drawn) (x : pt) : Prop := exists d t, In d ds /\ 0 <= t <= 1 /\ traces d t x.
(** [x] is a point of one of the segments. *)
Definition sketched_at (ds : list (option drawn)) (x : pt) : Prop := exists d t, In (Some d) ds /\ 0 <= t <= 1 /\ traces d t x.
