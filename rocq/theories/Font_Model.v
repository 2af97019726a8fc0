(** Text.parse_font, svgio/nodes.py:1578-1623, with REGEX_CSS_FONT of constants.py:180-182. *)
Require Import ZArith QArith Ascii String List Bool.
Require Import Verif.Base Verif.Length_Model Verif.Regex_Model.
Import ListNotations.
Local Open Scope nat_scope.

(** The attributes parse_font sets. None: not set so far. *)
Record font := mkFont { font_weight : option Z; font_size : option lval; font_face : option text; font_family : option text }.

(** parse_font_weight, nodes.py:1615-1623: int() raises ValueError, not the KeyError that is caught. *)
Definition parse_font_weight (w : text) : Res Z :=
  if teqb w (T "bold") then Ok 700%Z
  else if teqb w (T "normal") then Ok 400%Z
  else py_int10 w.
(** Length(s).value(), nodes.py:1606. *)
Definition size_value (s : text) : Res lval := value (mkCtx None None None None None) (len_of_text s).
(** font_face[:-1] if font_face.endswith(","), nodes.py:1608-1609. *)
Definition drop_comma (s : text) : text :=
  match rev s with c :: r => if aeqb c "," then rev r else s | [] => [] end.
(** nodes.py:1592-1613. list() of no argument is empty and of two raises TypeError. *)
Definition parse_font (old : font) (s : text) : Res font :=
  match findall (the REGEX_CSS_FONT) 0 0 s with
  | [] => Err IndexError
  | [m] =>
      do w <- match group0 3 m with [] => Ok (font_weight old) | g => rmap Some (parse_font_weight g) end;
      do z <- match group0 5 m with [] => Ok (font_size old) | g => rmap Some (size_value g) end;
      Ok (mkFont w z
        (match group0 7 m with [] => font_face old | g => Some (drop_comma g) end)
        (match group0 8 m with [] => font_family old | g => Some g end))
  | _ :: _ :: _ => Err TypeError
  end.
