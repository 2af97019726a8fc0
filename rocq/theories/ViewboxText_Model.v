(** The forms of the constructor of Viewbox, svgio/basic.py:2521-2538 and 2548-2570. *)
Require Import ZArith QArith Ascii String List Bool.
Require Import Verif.Base Verif.Viewbox_Model.
Import ListNotations.

(** What is given for the viewbox: None, text, a dictionary of attributes, another Viewbox. *)
Inductive vbarg := ANone | AText (s : text) | ADict (d : list (text * text)) | AObj (v : vbox).
(** dict.get *)
Fixpoint dget (k : text) (d : list (text * text)) : option text :=
  match d with [] => None | (n, v) :: r => if teqb n k then Some v else dget k r end.
(** set_viewbox, basic.py:2561-2570, on an object whose four numbers are None. *)
Definition vb_set (s : option text) (par : option text) : vbox :=
  match s with None => mkVb None None None None par | Some s => vb_of_text s par end.
(** property_by_values, basic.py:2555-2560. Attribute values are text. *)
Definition vb_by_values (d : list (text * text)) (par : option text) : vbox :=
  vb_set (dget (T "viewBox") d) (match dget (T "preserveAspectRatio") d with Some p => Some p | None => par end).
(** __init__, basic.py:2521-2538, with property_by_object, 2548-2553. *)
Definition vb_init (a : vbarg) (par : option text) : vbox :=
  match a with
  | ANone => vb_set None par
  | AText s => vb_set (Some s) par
  | ADict d => vb_by_values d par
  | AObj v => mkVb (vb_x v) (vb_y v) (vb_w v) (vb_h v) (vb_par v)
  end.
