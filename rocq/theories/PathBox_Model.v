(** Subpath.bbox, svgio/path.py:2940-2952, on the reals. *)
Require Import Reals ZArith List.
Require Import Verif.Point_Model Verif.Curve_Model Verif.Arc_Model Verif.PathEdit_Model.
Import ListNotations.
Open Scope R_scope.

(** A segment of any class. *)
Inductive aseg := ASeg (s : gseg) | AArc (A : arc).
(** seg.bbox(): path.py:457-468, 837-861, 1035-1042, 1889-1921. *)
Definition aseg_bbox (s : aseg) : box :=
  match s with
  | ASeg g => bbox g
  | AArc A => let '(x0, y0, x1, y1) := arc_bbox A in mkBox x0 y0 x1 y1
  end.
(** The rest of bbox: the condition of the comprehension asks whether the class Close is a Move, so no segment is left
    out; without any segment the result is None. *)
Definition boxes_bbox (bbs : list box) : option box :=
  match bbs with
  | [] => None
  | b :: r => Some (mkBox (rmin (xmin b) (map xmin r)) (rmin (ymin b) (map ymin r)) (rmax (xmax b) (map xmax r)) (rmax (ymax b) (map ymax r)))
  end.
Definition sub_bbox (p : list aseg) (u : sub) : option box :=
  boxes_bbox (map aseg_bbox (pyslice p (Some (u_start u)) (Some (u_end u + 1)%Z))).
