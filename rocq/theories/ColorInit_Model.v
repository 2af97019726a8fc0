(** The constructor of Color with positional and keyword arguments, svgio/basic.py:508-572. *)
Require Import ZArith QArith List Bool.
Require Import Verif.Base Verif.Color_Model.
Import ListNotations.
Open Scope Z_scope.

(** Positional arguments: none, one, two, three, four or more, basic.py:510-538. More than four are not looked at. *)
Inductive cpos :=
| Pos0
| Pos1 (a : carg)
| Pos2 (a : carg) (opacity : Q)
| Pos3 (r g b : Q)
| Pos4 (r g b a : Q)
| PosMore.
Definition color_pos (p : cpos) : Res color :=
  match p with
  | Pos0 | PosMore => Ok (Some 0)
  | Pos1 a => color_of a
  | Pos2 a o => color_of2 a o
  | Pos3 r g b => Ok (color_rgb r g b)
  | Pos4 r g b a => Ok (color_rgba r g b a)
  end.
(** Keyword arguments, basic.py:539-572; numbers for channels, opacity, hue, saturation and lightness, integers for the
    packed forms (rgba also takes None). *)
Record ckw := mkKw {
  kw_red : option Q; kw_green : option Q; kw_blue : option Q; kw_alpha : option Q; kw_opacity : option Q;
  kw_r : option Q; kw_g : option Q; kw_b : option Q;
  kw_rgb : option Z; kw_argb : option Z; kw_rgba : option (option Z);
  kw_h : option Q; kw_s : option Q; kw_l : option Q;
  kw_hue : option Q; kw_saturation : option Q; kw_lightness : option Q }.
Definition no_kw : ckw := mkKw None None None None None None None None None None None None None None None None None.
Definition given {A} (o : option A) (set : color -> A -> Res color) (c : Res color) : Res color :=
  do v <- c; match o with None => Ok v | Some x => set v x end.
(** Color(..., red=..., ...): the keywords are looked at in this order. *)
Definition color_init (p : cpos) (k : ckw) : Res color :=
  let c := color_pos p in
  let c := given (kw_red k) set_red c in
  let c := given (kw_green k) set_green c in
  let c := given (kw_blue k) set_blue c in
  let c := given (kw_alpha k) set_alpha c in
  let c := given (kw_opacity k) set_opacity c in
  let c := given (kw_r k) set_red c in
  let c := given (kw_g k) set_green c in
  let c := given (kw_b k) set_blue c in
  let c := given (kw_rgb k) (fun _ n => Ok (Some (set_rgb n))) c in
  let c := given (kw_argb k) (fun _ n => Ok (Some (set_argb n))) c in
  let c := given (kw_rgba k) (fun _ n => Ok n) c in
  let c := given (kw_h k) set_hue c in
  let c := given (kw_s k) set_saturation c in
  let c := given (kw_l k) set_lightness c in
  let c := given (kw_hue k) set_hue c in
  let c := given (kw_saturation k) set_saturation c in
  given (kw_lightness k) set_lightness c.
