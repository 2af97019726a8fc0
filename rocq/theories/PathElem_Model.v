(** The geometry of path and line elements: Path.segments and Path.d of nodes.py:1340-1347, Shape.d and Shape.bbox of
    nodes.py:641-668, on top of the document tree, the path data parser and the boxes of segments. *)
Require Import Reals QArith Qreals Qcanon Ascii String List Bool.
Require Import Verif.Base Verif.Point_Model Verif.Curve_Model Verif.Arc_Model Verif.PathBox_Model.
Require Import Verif.Dom_Model Verif.Shape_Model.
Require Verif.Path_Model Verif.PathText_Model Verif.PathD_Model.
Import ListNotations.
Open Scope R_scope.

(** A point of the parser as a point of the geometry. *)
Definition real_pt (p : Qc * Qc) : pt := P (Q2R (this (fst p))) (Q2R (this (snd p))).
(** path.Path(value), path.py:1964-1986, for what an attribute may be: text is parsed, anything else is passed over. *)
Definition path_of (v : option value) : Res Path_Model.path :=
  match v with
  | Some (VText s) => match PathText_Model.parse s [] with (p, None) => Ok p | (_, Some e) => Err e end
  | _ => Ok []
  end.
(** Path.d, nodes.py:1339-1342, and Path.segments, nodes.py:1344-1347: [transformed] is not used. *)
Definition elem_d (d : dom) (i : nat) : Res (option value) := prop d i (T "d"%string).
Definition elem_segments (d : dom) (i : nat) (transformed : bool) : Res Path_Model.path := do v <- elem_d d i; path_of v.
(** The arc the parser makes, path.py:2572-2584, 1586-1679. *)
Definition real_arc (a b : Qc * Qc) (g : Path_Model.arcargs) : arc :=
  svg_parameterize (real_pt a) (Q2R (this (Path_Model.a_rx g))) (Q2R (this (Path_Model.a_ry g))) (Q2R (this (Path_Model.a_rot g)))
    (Path_Model.a_large g) (Path_Model.a_sweep g) (real_pt b).
(** seg.bbox() where points may be missing: PathSegment.bbox, path.py:457-468, passes over them, and min() of nothing is a
    ValueError; a quadratic curve reads them (837-861). A cubic curve (1050-1051) has too few numbers if one of its
    points is passed over by __next__ (406-416), and meets None[v] if two in a row are missing. An arc has all its points. *)
Fixpoint yields (l : list (option (Qc * Qc))) : list (option (Qc * Qc)) :=
  match l with [] => [] | Some p :: r => Some p :: yields r | None :: [] => [] | None :: x :: r => x :: yields r end.
Definition seg_bbox (s : Path_Model.seg) : Res box :=
  match Path_Model.s_kind s, Path_Model.s_start s, Path_Model.s_end s with
  | (Path_Model.KMove | Path_Model.KLine | Path_Model.KClose), None, None => Err ValueError
  | (Path_Model.KMove | Path_Model.KLine | Path_Model.KClose), Some a, None | (Path_Model.KMove | Path_Model.KLine | Path_Model.KClose), None, Some a => Ok (bbox_of (real_pt a) [])
  | (Path_Model.KMove | Path_Model.KLine | Path_Model.KClose), Some a, Some b => Ok (bbox_of (real_pt a) [real_pt b])
  | Path_Model.KQuad (Some c), Some a, Some b => Ok (quad_bbox (real_pt a) (real_pt c) (real_pt b))
  | Path_Model.KQuad _, _, _ => Err AttributeError
  | Path_Model.KCubic (Some c) (Some d), Some a, Some b => Ok (cubic_bbox (real_pt a) (real_pt c) (real_pt d) (real_pt b))
  | Path_Model.KCubic c d, a, b => Err (if forallb (fun o => match o with Some _ => true | None => false end) (yields [a; c; d; b]) then IndexError else TypeError)
  | Path_Model.KArc g, Some a, Some b => Ok (aseg_bbox (AArc (real_arc a b g)))
  | Path_Model.KArc _, _, _ => Err Unmodelled
  end.
Fixpoint all_ok {A B} (f : A -> Res B) (l : list A) : Res (list B) :=
  match l with [] => Ok [] | x :: r => do y <- f x; do ys <- all_ok f r; Ok (y :: ys) end.
(** Shape.bbox, nodes.py:653-668, of a path element: as in Subpath.bbox no segment is left out. *)
Definition elem_bbox (d : dom) (i : nat) (transformed : bool) : Res (option box) :=
  do p <- elem_segments d i transformed;
  do bbs <- all_ok seg_bbox p;
  Ok (boxes_bbox bbs).

(** Shape.bbox of a line element. *)
Definition oseg_bbox (s : oseg) : box :=
  match s with
  | OMove e => bbox (GMove None e) | OLine a b => bbox (GLine a b) | OClose a b => bbox (GClose a b) | OArc A => aseg_bbox (AArc A)
  end.
Definition line_bbox (matrix : text -> Res Matrix_Model.mx) (x1 y1 x2 y2 transform : sval) (transformed : bool) : Res (option box) :=
  do segs <- line_segments matrix x1 y1 x2 y2 transform transformed;
  Ok (boxes_bbox (map oseg_bbox segs)).
(** Shape.d, nodes.py:641-651: d() of a path of the segments, path.py:2754-2758; [to_path] makes the path. *)
Definition shape_d (segments : bool -> Res (list oseg)) (to_path : list oseg -> Path_Model.path) (relative transformed : bool) : Res text :=
  do segs <- segments transformed;
  PathD_Model.path_d (to_path segs) (Some relative) true None.
