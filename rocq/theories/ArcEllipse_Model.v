(** The ellipse of an arc, svgio/path.py:1764-1775, 1886-1887. *)
Require Import Reals List Ascii String Bool.
Require Import Verif.Base Verif.Point_Model Verif.Arc_Model Verif.Dom_Model.
Import ListNotations.
Open Scope R_scope.

(** is_circular, path.py:1764-1767. *)
Definition is_circular (A : arc) : bool := if Req_EM_T (arx A) (ary A) then true else false.
(** radius, path.py:1769-1775. *)
Definition arc_radius (A : arc) : pt := P (arx A) (ary A).
(** What the call in get_ellipse hands to Ellipse. *)
Inductive earg := EPoint (p : pt) | ENum (x : R).
(** Ellipse( *args), nodes.py:993-1001: the attributes that the positional arguments give. *)
Definition ellipse_init (args : list earg) : dict earg := combine (positional CEllipse) args.
(** get_ellipse, path.py:1886-1887. [ellipse] is what the name Ellipse stands for in path.py: nothing imports it. *)
Definition get_ellipse (ellipse : Res (list earg -> dict earg)) (A : arc) : Res (dict earg) :=
  do make <- ellipse;
  Ok (make [EPoint (a_center A); ENum (arx A); ENum (ary A); ENum (rotation A)]).
Definition get_ellipse_repo : arc -> Res (dict earg) := get_ellipse (Err NameError).
