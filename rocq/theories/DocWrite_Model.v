(** str() and write() of a document, svgio/nodes.py:50-51, 413-426, 455-457. *)
Require Import ZArith QArith List Ascii String Bool.
Require Import Verif.Base Verif.Dom_Model Verif.ElemRepr_Model.
Import ListNotations.

Section Write.
  (** str of a number and of None. *)
  Variable str : value -> text.
  (** ElementTree.tostring, not modelled. *)
  Variable tostring : xtree -> text.
  (** "%f" % of the width, the height and the pixels per inch of the document, str of its color and transform. *)
  Variables width height ppi color transform : text.
  (** How deep Python recurs. *)
  Variable fuel : nat.
  (** str(element): Node.__str__, nodes.py:50-51. Text.__str__, 1530-1537, reads self.anchor, which is never set. Mask is no Node (1394), so
      that its str shows an address, and a Document below another is printed by what follows: neither is modelled. *)
  Definition elem_str (d : dom) (i : nat) : Res text :=
    match get d i with
    | Some n =>
        match n_cls n with
        | CText | CTSpan => Err AttributeError
        | CMask | CDocument => Err Unmodelled
        | _ => do x <- xml str fuel d i; Ok (tostring x)
        end
    | None => Err Unmodelled
    end.
  (** Document.__str__, nodes.py:413-426. *)
  Definition document_str (d : dom) : Res text :=
    match get d 0 with
    | Some n =>
        match n_attrs n with
        | Some a =>
            let values := map (fun p => fst p ++ T "="%string ++ value_str str (snd p)) a in
            do data <- match n_kids n with
                       | [] => Ok []
                       | k :: _ => do s <- elem_str d k; Ok [T "data='"%string ++ s ++ T "'"%string]
                       end;
            let values := values ++ data ++ [T "width="%string ++ width; T "height="%string ++ height; T "pixels_per_inch="%string ++ ppi;
                                             T "color="%string ++ color; T "transform="%string ++ transform] in
            Ok (class_name (n_cls n) ++ T "("%string ++ comma_join values ++ T ")"%string)
        | None => Err AttributeError
        end
    | None => Err Unmodelled
    end.
  (** write(), nodes.py:455-457: the text that the file then holds. *)
  Definition document_write (d : dom) : Res text := document_str d.
End Write.
