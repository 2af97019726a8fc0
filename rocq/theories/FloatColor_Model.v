(** The conversions and blending of Color of svgio/basic.py in binary floating point. Color_Model models them on the
    rational numbers. *)
Require Import ZArith Bool.
From Flocq Require Import Core BinarySingleNaN.
Require Import Verif.Float_Model Verif.FloatAngle_Model.
Require Verif.Color_Model.
Open Scope Z_scope.

(** Color.crimp of a float that is not NaN, basic.py:1400-1405. *)
Definition fcrimp_float (v : fl) : Z := if flt (fz 255) v then 255 else if flt v (fz 0) then 0 else Btrunc v.
(** The alpha of Color.rgb_to_int, basic.py:613-621. *)
Definition fopacity_byte (opacity : fl) : Z :=
  let o := if flt (fz 1) opacity then fz 1 else opacity in
  let o := if flt o (fz 0) then fz 0 else o in
  fcrimp (fround (fmul o (fz 255))).
(** Color.rgb_to_int, basic.py:612-626, of floats. *)
Definition frgb_to_int (r g b opacity : fl) : Z :=
  Z.lor (Z.lor (Z.lor (Z.shiftl (fcrimp_float r) 24) (Z.shiftl (fcrimp_float g) 16)) (Z.shiftl (fcrimp_float b) 8)) (fopacity_byte opacity).

Definition fhalf : fl := fdiv (fz 1) (fz 2).
Definition fthird : fl := fdiv (fz 1) (fz 3).
(** hue_2_rgb inside Color.hsl_to_int, basic.py:630-641. *)
Definition fhue_2_rgb (v1 v2 vh : fl) : fl :=
  let vh := if flt vh (fz 0) then fadd vh (fz 1) else vh in
  let vh := if flt (fz 1) vh then fsub vh (fz 1) else vh in
  if flt (fmul (fz 6) vh) (fz 1) then fadd v1 (fmul (fmul (fsub v2 v1) (fz 6)) vh)
  else if flt (fmul (fz 2) vh) (fz 1) then v2
  else if flt (fmul (fz 3) vh) (fz 2) then fadd v1 (fmul (fmul (fsub v2 v1) (fsub (fdiv (fz 2) (fz 3)) vh)) (fz 6))
  else v1.
(** v1 and v2, basic.py:648-652. *)
Definition fv2 (s l : fl) : fl := if flt l fhalf then fmul l (fadd (fz 1) s) else fsub (fadd l s) (fmul s l).
Definition fv1 (s l : fl) : fl := fsub (fmul (fz 2) l) (fv2 s l).
(** The channels of Color.hsl_to_int before they are cut, basic.py:643-655. *)
Definition fhsl_to_rgb (h s l : fl) : fl * fl * fl :=
  if feq s (fz 0) then (fmul (fz 255) l, fmul (fz 255) l, fmul (fz 255) l)
  else (fmul (fz 255) (fhue_2_rgb (fv1 s l) (fv2 s l) (fadd h fthird)), fmul (fz 255) (fhue_2_rgb (fv1 s l) (fv2 s l) h),
        fmul (fz 255) (fhue_2_rgb (fv1 s l) (fv2 s l) (fsub h fthird))).
(** Color.hsl_to_int, basic.py:628-657. *)
Definition fhsl_to_int (h s l opacity : fl) : Z := let '(r, g, b) := fhsl_to_rgb h s l in frgb_to_int r g b opacity.
(** The hsl setter, basic.py:1413-1420: the hue is handed on as it is. *)
Definition fset_hsl (h s l : fl) : Z := fhsl_to_int h s l (fz 1).

(** min and max of three numbers. *)
Definition fmin3 (a b c : fl) : fl := fmin (fmin a b) c.
Definition fmax3 (a b c : fl) : fl := fmax (fmax a b) c.
Definition fchan01 (n : Z) : fl := fdiv (fz n) (fz 255).
(** dr, dg and db of Color.hue, basic.py:1217-1219. *)
Definition fpart (mx d x : fl) : fl := fdiv (fadd (fdiv (fsub mx x) (fz 6)) (fdiv d (fz 2))) d.
(** Color.hue, basic.py:1206-1230, in turns. *)
Definition fhue_turns (v : Z) : fl :=
  let r := fchan01 (Color_Model.get_red v) in
  let g := fchan01 (Color_Model.get_green v) in
  let b := fchan01 (Color_Model.get_blue v) in
  let mx := fmax3 r g b in
  let d := fsub mx (fmin3 r g b) in
  if feq d (fz 0) then fz 0
  else
    let h := if feq r mx then fsub (fpart mx d b) (fpart mx d g)
             else if feq g mx then fsub (fadd fthird (fpart mx d r)) (fpart mx d b)
             else fsub (fadd (fdiv (fz 2) (fz 3)) (fpart mx d g)) (fpart mx d r) in
    let h := if flt h (fz 0) then fadd h (fz 1) else h in
    if flt (fz 1) h then fsub h (fz 1) else h.
(** Color.hue, basic.py:1231. *)
Definition fhue (v : Z) : fl := fas_degrees (fturns (fhue_turns v)).
(** Color.saturation, basic.py:1240-1255. *)
Definition fsaturation (v : Z) : fl :=
  let r := fchan01 (Color_Model.get_red v) in
  let g := fchan01 (Color_Model.get_green v) in
  let b := fchan01 (Color_Model.get_blue v) in
  let mn := fmin3 r g b in
  let mx := fmax3 r g b in
  if feq mx mn then fz 0
  else if flt (fadd mx mn) (fz 1) then fdiv (fsub mx mn) (fadd mx mn)
  else fdiv (fsub mx mn) (fsub (fsub (fz 2) mx) mn).
(** Color.lightness, basic.py:1264-1273. *)
Definition flightness (v : Z) : fl :=
  let r := fchan01 (Color_Model.get_red v) in
  let g := fchan01 (Color_Model.get_green v) in
  let b := fchan01 (Color_Model.get_blue v) in
  fdiv (fadd (fmax3 r g b) (fmin3 r g b)) (fz 2).

(** Color.over of two colour values, basic.py:1337-1362. *)
Definition fover (v1 v2 : Z) : Z :=
  let a1 := Color_Model.get_alpha v1 in
  if a1 =? 255 then v1
  else if a1 =? 0 then v2
  else
    let a2 := Color_Model.get_alpha v2 in
    let q := fsub (fz 255) (fz a1) in
    let mix x y := fadd (fmul (fz (x * a1)) (fz 255)) (fmul (fz (y * a2)) q) in
    let sa := fadd (fmul (fz a1) (fz 255)) (fmul (fz a2) q) in
    frgb_to_int (fdiv (mix (Color_Model.get_red v1) (Color_Model.get_red v2)) sa) (fdiv (mix (Color_Model.get_green v1) (Color_Model.get_green v2)) sa)
      (fdiv (mix (Color_Model.get_blue v1) (Color_Model.get_blue v2)) sa) (fdiv sa (fmul (fz 255) (fz 255))).

(** A channel of parse_color_rgbp, basic.py:1023-1027, with crimp: the percentage as a float. *)
Definition fpercent (p : fl) : Z := fcrimp (fround (fmul p (fdiv (fz 255) (fz 100)))).
(** s and l of parse_color_hsl, basic.py:1038-1048. *)
Definition fclamp1 (p : fl) : fl :=
  let s := fdiv p (fz 100) in
  let s := if flt (fz 1) s then fz 1 else s in
  if flt s (fz 0) then fz 0 else s.
(** parse_color_hsl, basic.py:1034-1053, from the numbers on; the hue is in degrees. *)
Definition fparse_hsl (d s l opacity : fl) : Z := fhsl_to_int (fas_turns (fdegrees d)) (fclamp1 s) (fclamp1 l) opacity.
