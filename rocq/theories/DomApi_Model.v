(** The DOM interface of nodes (nodes.py:126-315, 318-383) and the properties that read attributes (nodes.py:318-326, 498-502,
    522-568, 686-1347, 1382-1499, 1548-1576, 1663-1703, 1783-1853, 1887-1947). *)
Require Import ZArith QArith List Ascii String Bool.
Require Import Verif.Base Verif.Dom_Model.
Import ListNotations.

(** A property of class Node; Mask (1394) is no Node. *)
Definition of_node {A} (d : dom) (i : nat) (f : node -> A) : Res A :=
  match get d i with
  | Some n => if is_node (n_cls n) then Ok (f n) else Err AttributeError
  | None => Err Unmodelled
  end.
(** Elements are the classes below Element: all but Document, Node and Mask. *)
Definition is_element (c : cls) : bool := match c with CDocument | CNode | CMask => false | _ => true end.
(** A property of class Element. *)
Definition of_element {A} (d : dom) (i : nat) (f : node -> A) : Res A :=
  match get d i with
  | Some n => if is_element (n_cls n) then Ok (f n) else Err AttributeError
  | None => Err Unmodelled
  end.
(** first_child, 126-136: self[0]. *)
Definition first_child (d : dom) (i : nat) : Res (option nat) :=
  of_node d i (fun n => if Nat.eqb (List.length (n_kids n)) 0 then None else nth_error (n_kids n) 0).
(** last_child, 148-158: self[-1]. *)
Definition last_child (d : dom) (i : nat) : Res (option nat) :=
  of_node d i (fun n => if Nat.eqb (List.length (n_kids n)) 0 then None else nth_error (n_kids n) (List.length (n_kids n) - 1)).
(** has_child_nodes, 252-254. *)
Definition has_child_nodes (d : dom) (i : nat) : Res bool := of_node d i (fun n => negb (Nat.eqb (List.length (n_kids n)) 0)).
(** is_connected, 138-146. *)
Definition is_connected (d : dom) (i : nat) : Res bool := of_node d i (fun n => match n_parent n with Some _ => true | None => false end).
(** owner_document, 182-188; parent_element and parent_node, 190-202. *)
Definition owner_document (d : dom) (i : nat) : Res (option nat) := of_node d i n_doc.
Definition parent_element (d : dom) (i : nat) : Res (option nat) := of_node d i n_parent.
Definition parent_node (d : dom) (i : nat) : Res (option nat) := of_node d i n_parent.
(** is_equal_node, 268-275: list equality. is_same_node, 277-282. *)
Definition is_equal_node (d : dom) (i j : nat) : Res bool := of_node d i (fun _ => same (List.length (heap d)) d i j).
Definition is_same_node (d : dom) (i j : nat) : Res bool := of_node d i (fun _ => Nat.eqb i j).
(** child_element_count, 329-330; children, 333-334; first_element_child and last_element_child, 365-370. *)
Definition child_element_count (d : dom) (i : nat) : Res Z := of_element d i (fun n => Z.of_nat (List.length (n_kids n))).
Definition children (d : dom) (i : nat) : Res (list nat) := of_element d i n_kids.
Definition first_element_child (d : dom) (i : nat) : Res (option nat) :=
  do _ <- of_element d i (fun _ => tt); first_child d i.
Definition last_element_child (d : dom) (i : nat) : Res (option nat) :=
  do _ <- of_element d i (fun _ => tt); last_child d i.

(** How a property finds its value. *)
Inductive accessor :=
| Own (key : text)                           (* self.attributes.get(key) *)
| Any (key : text) (default : option value)  (* Document.get_values(self).get(key, default) *)
| Href                                       (* xlink:href if there is one, else href; e.g. nodes.py:1462-1468 *)
| Fit.                                       (* viewbox_transform of SVG, nodes.py:1848-1853 *)
Definition any (names : list (string * string)) : dict accessor := map (fun p => (T (fst p), Any (T (snd p)) None)) names.
(** Element.id, nodes.py:324-326. *)
Definition acc_element : dict accessor := [(T "id"%string, Own (T "id"%string))].
(** Transformable.transform, nodes.py:499-502. *)
Definition acc_transform : dict accessor := any [("transform", "transform")]%string.
(** GraphicalElement, nodes.py:525-528, 546-549, 565-568; fill and stroke are in Paint_Model. *)
Definition acc_graphical : dict accessor :=
  any [("stroke_opacity", "stroke-opacity"); ("fill_opacity", "fill-opacity"); ("stroke_width", "stroke-width")]%string.
(** The four of Mask 1398-1416, Pattern 1442-1460, Text 1548-1566, Image 1663-1681, SVG 1820-1838, Use 1887-1905. *)
Definition acc_box : dict accessor := any [("x", "x"); ("y", "y"); ("width", "width"); ("height", "height")]%string.
Definition acc_shape : dict accessor := acc_element ++ acc_transform ++ acc_graphical.
(** The properties of each class that read attributes. Not modelled: position and center (a Point of two of them), viewbox_transform of
    Pattern and Image (they read self.viewbox, which does not exist), data (see Image_Model). *)
Definition accessors (c : cls) : dict accessor :=
  match c with
  | CDocument | CNode => []
  (* Rect, nodes.py:706-734 *)
  | CRect => acc_shape ++ [(T "x"%string, Any (T "x"%string) (Some (VNum 0))); (T "y"%string, Any (T "y"%string) (Some (VNum 0)));
               (T "width"%string, Any (T "width"%string) (Some (VNum 1))); (T "height"%string, Any (T "height"%string) (Some (VNum 1)))]
               ++ any [("rx", "rx"); ("ry", "ry")]%string
  (* Ellipse, nodes.py:1002-1020; Circle, 1090-1103; Line, 1180-1198; Polyline and Polygon, 1225-1228; Path, 1339-1342 *)
  | CEllipse => acc_shape ++ any [("rx", "rx"); ("ry", "ry"); ("cx", "cx"); ("cy", "cy")]%string
  | CCircle => acc_shape ++ any [("r", "r"); ("cx", "cx"); ("cy", "cy")]%string
  | CLine => acc_shape ++ any [("x1", "x1"); ("y1", "y1"); ("x2", "x2"); ("y2", "y2")]%string
  | CPolyline | CPolygon => acc_shape ++ any [("points", "points")]%string
  | CPath => acc_shape ++ any [("d", "d")]%string
  (* Group, nodes.py:1358 *)
  | CGroup => acc_element ++ acc_transform
  (* ClipPath, nodes.py:1382-1385 *)
  | CClipPath => acc_element ++ [(T "unit_type"%string, Any (T "clipPathUnits"%string) (Some (VText (T "userSpaceOnUse"%string))))]
  | CMask => acc_box
  | CPattern => acc_element ++ acc_box ++ [(T "href"%string, Href)]
  (* Text and TSpan, nodes.py:1548-1576 *)
  | CText | CTSpan => acc_shape ++ acc_box ++ any [("dx", "dx"); ("dy", "dy")]%string
  (* Image, nodes.py:1663-1697 *)
  | CImage => acc_shape ++ acc_box ++ [(T "href"%string, Href); (T "viewBox"%string, Own (T "viewBox"%string)); (T "preserveAspectRatio"%string, Own (T "preserveAspectRatio"%string))]
  (* Desc 1785-1788, Title 1795-1798 *)
  | CDesc => acc_element ++ any [("desc", "desc")]%string
  | CTitle => acc_element ++ any [("title", "title")]%string
  (* SVG, a Group, nodes.py:1820-1853 *)
  | CSVG => acc_element ++ acc_transform ++ acc_box ++ [(T "viewBox"%string, Own (T "viewBox"%string)); (T "preserveAspectRatio"%string, Own (T "preserveAspectRatio"%string)); (T "viewbox_transform"%string, Fit)]
  | CUse => acc_element ++ acc_box
  (* Script 1928-1934, Hyperlink 1941-1947 *)
  | CScript | CHyperlink => acc_element ++ [(T "href"%string, Href)]
  | CDefs | CSymbol | CMarker | CStyle | CMetadata | CLinearGradient | CRadialGradient => acc_element
  end.
(** constants.py:22-23 *)
Definition xlink_href : text := T "{http://www.w3.org/1999/xlink}href"%string.
(** What reading a property gives: the value, None, or the builder of an element. *)
Inductive found := FVal (v : option value) | FBuilder (c : cls) | FText (t : text).
Definition read (d : dom) (i : nat) (a : accessor) : Res found :=
  match a with
  | Own k =>
      match get d i with
      | Some n => match n_attrs n with Some a => Ok (FVal (dget k a)) | None => Err AttributeError end
      | None => Err Unmodelled
      end
  | Any k def => do v <- get_values d i; Ok (FVal (match dget k v with Some x => Some x | None => def end))
  | Href =>
      do v <- get_values d i;
      Ok (FVal (match dget xlink_href v with Some x => Some x | None => dget (T "href"%string) v end))
  | Fit =>
      match get d i with
      | Some n =>
          match n_attrs n with
          | Some a => match dget (T "viewBox"%string) a with
                      | None | Some VNone => Ok (FText [])
                      | Some _ => Err AttributeError (* neither a str nor a number has a method transform *)
                      end
          | None => Err AttributeError
          end
      | None => Err Unmodelled
      end
  end.
(** element.name: names of elements come first, nodes.py:61-66. *)
Definition read_property (d : dom) (i : nat) (name : text) : Res found :=
  match get d i with
  | None => Err Unmodelled
  | Some n =>
      match (if is_node (n_cls n) then dget (dash name) bootstrap else None) with
      | Some c => Ok (FBuilder c)
      | None => match dget name (accessors (n_cls n)) with Some a => read d i a | None => Err AttributeError end
      end
  end.
