(** What the DOM interface and the properties of elements mean. *)
Require Import List Ascii String Arith QArith.
Require Import Verif.Base Verif.Dom_Model Verif.Dom_Spec Verif.DomApi_Model.
Import ListNotations.

(** The objects met by c = node.first_child; while c is not None: c = c.next_sibling. *)
Inductive visits (d : dom) : option nat -> list nat -> Prop :=
| visits_end : visits d None []
| visits_step c next l : next_sibling d c = Ok next -> visits d next l -> visits d (Some c) (c :: l).
(** No two objects of a list have the same shape. *)
Definition unlike (d : dom) (l : list nat) : Prop :=
  forall a i b j c, l = a ++ i :: b ++ j :: c -> ~ alike d i j.

(** The properties the elements of SVG have, and the attribute of SVG each is named for. *)
Definition box : list (string * string) := [("x", "x"); ("y", "y"); ("width", "width"); ("height", "height")]%string.
Definition paint : list (string * string) :=
  [("transform", "transform"); ("stroke_opacity", "stroke-opacity"); ("fill_opacity", "fill-opacity"); ("stroke_width", "stroke-width")]%string.
Definition svg_properties : list (cls * list (string * string)) := [
  (CRect, box ++ [("rx", "rx"); ("ry", "ry")] ++ paint); (CEllipse, [("cx", "cx"); ("cy", "cy"); ("rx", "rx"); ("ry", "ry")] ++ paint);
  (CCircle, [("cx", "cx"); ("cy", "cy"); ("r", "r")] ++ paint); (CLine, [("x1", "x1"); ("y1", "y1"); ("x2", "x2"); ("y2", "y2")] ++ paint);
  (CPolyline, [("points", "points")] ++ paint); (CPolygon, [("points", "points")] ++ paint); (CPath, [("d", "d")] ++ paint);
  (CText, box ++ [("dx", "dx"); ("dy", "dy")] ++ paint); (CTSpan, box ++ [("dx", "dx"); ("dy", "dy")] ++ paint); (CImage, box ++ paint);
  (CGroup, [("transform", "transform")]); (CSVG, box); (CUse, box); (CPattern, box); (CMask, box); (CClipPath, [("unit_type", "clipPathUnits")])]%list%string.
(** What stands for an attribute that is not there; None elsewhere. *)
Definition absent (c : cls) (key : string) : option value :=
  match c, key with
  | CRect, "x"%string | CRect, "y"%string => Some (VNum 0)
  | CRect, "width"%string | CRect, "height"%string => Some (VNum 1)
  | CClipPath, _ => Some (VText (T "userSpaceOnUse"%string))
  | _, _ => None
  end.
(** Nobody from the object up has the key. *)
Definition nowhere (d : dom) (k : text) (i : nat) : Prop := forall v, ~ nearest d k i v.
