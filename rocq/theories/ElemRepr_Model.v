(** repr() of elements, svgio/nodes.py:53-59, 314-315, 1539-1546. *)
Require Import ZArith QArith List Ascii String Bool.
Require Import Verif.Base Verif.Dom_Model.
Import ListNotations.

(** _name(), nodes.py:314-315 and each class: the name of the class. *)
Definition class_name (c : cls) : text :=
  match c with
  | CDocument => T "Document" | CNode => T "Node" | CSVG => T "SVG" | CGroup => T "Group" | CDefs => T "Defs" | CSymbol => T "Symbol"
  | CMarker => T "Marker" | CUse => T "Use" | CStyle => T "Style" | CScript => T "Script" | CHyperlink => T "Hyperlink"
  | CText => T "Text" | CTSpan => T "TSpan" | CPath => T "Path" | CLine => T "Line" | CRect => T "Rect"
  | CCircle => T "Circle" | CEllipse => T "Ellipse" | CPolyline => T "Polyline" | CPolygon => T "Polygon" | CImage => T "Image"
  | CTitle => T "Title" | CDesc => T "Desc" | CMetadata => T "Metadata" | CClipPath => T "ClipPath" | CMask => T "Mask"
  | CLinearGradient => T "LinearGradient" | CRadialGradient => T "RadialGradient" | CPattern => T "Pattern"
  end%string.
(** ", ".join *)
Fixpoint comma_join (l : list text) : text :=
  match l with
  | [] => []
  | [x] => x
  | x :: r => x ++ T ", "%string ++ comma_join r
  end.
Section Repr.
  (** str of a number and of None. *)
  Variable str : value -> text.
  Definition value_str (v : value) : text := match v with VText t => t | _ => str v end.
  (** Node.__repr__, nodes.py:53-59; an Image made by a call has no attributes (1642-1645). Text.__repr__, 1539-1546, reads self.anchor, which is never set.
      Mask is no Node (1394), so that its repr is that of object, which shows an address: not modelled. *)
  Definition node_repr (n : node) : Res text :=
    match n_cls n with
    | CMask => Err Unmodelled
    | CText | CTSpan => Err AttributeError
    | c =>
        match n_attrs n with
        | None => Err AttributeError
        | Some a =>
            let values := map (fun p => fst p ++ T "="%string ++ value_str (snd p)) a in
            Ok (class_name c ++ T "("%string ++ comma_join values ++ T ")"%string)
        end
    end.
End Repr.
