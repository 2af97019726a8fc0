(** Model of class Color, svgio/basic.py:500-1434. *)
Require Import ZArith QArith Qround List Ascii String Bool.
Require Import Verif.Base.
Import ListNotations.
Open Scope Z_scope.

(** A Color object: the content of its [value] attribute (basic.py:508-509); None is "no paint".
    The integer is not forced into 32 bits by the code. *)
Definition color : Type := option Z.

(** Color.crimp, basic.py:1400-1405 (argument any number). *)
Definition crimp (v : Q) : Z :=
  if Qltb 255 v then 255 else if Qltb v 0 then 0 else Qtrunc v.

(** Color.rgb_to_int, basic.py:612-626. *)
Definition rgb_to_int (r g b opacity : Q) : Z :=
  let opacity := if Qltb 1 opacity then 1%Q else opacity in
  let opacity := if Qltb opacity 0 then 0%Q else opacity in
  let r := crimp r in
  let g := crimp g in
  let b := crimp b in
  let a := Qround_even (opacity * 255) in
  let a := crimp (inject_Z a) in
  Z.lor (Z.lor (Z.lor (Z.shiftl r 24) (Z.shiftl g 16)) (Z.shiftl b 8)) a.

(** hue_2_rgb inside Color.hsl_to_int, basic.py:630-641. *)
Definition hue_2_rgb (v1 v2 vh : Q) : Q :=
  let vh := if Qltb vh 0 then (vh + 1)%Q else vh in
  let vh := if Qltb 1 vh then (vh - 1)%Q else vh in
  if Qltb (6 * vh) 1 then (v1 + (v2 - v1) * 6 * vh)%Q
  else if Qltb (2 * vh) 1 then v2
  else if Qltb (3 * vh) 2 then (v1 + (v2 - v1) * ((2 # 3) - vh) * 6)%Q
  else v1.

(** The three unscaled-to-int channel values of Color.hsl_to_int, basic.py:643-656. *)
Definition hsl_to_rgbq (h s l : Q) : Q * Q * Q :=
  if Qeq_bool s 0 then (255 * l, 255 * l, 255 * l)%Q
  else
    let v2 := if Qltb l (1 # 2) then (l * (1 + s))%Q else ((l + s) - (s * l))%Q in
    let v1 := (2 * l - v2)%Q in
    (255 * hue_2_rgb v1 v2 (h + (1 # 3)), 255 * hue_2_rgb v1 v2 h, 255 * hue_2_rgb v1 v2 (h - (1 # 3)))%Q.

(** Color.hsl_to_int, basic.py:629-657. *)
Definition hsl_to_int (h s l opacity : Q) : Z :=
  let '(r, g, b) := hsl_to_rgbq h s l in rgb_to_int r g b opacity.

(** The if-chain of Color.parse_color_lookup, basic.py:687-982, in source order (the first match
    wins); "transparent" (685-686) is handled in [parse_color_lookup]. *)
Definition keyword_chain : list (string * (Z * Z * Z)) := [
  ("aliceblue", (250, 248, 255));
  ("aliceblue", (240, 248, 255));
  ("antiquewhite", (250, 235, 215));
  ("aqua", (0, 255, 255));
  ("aquamarine", (127, 255, 212));
  ("azure", (240, 255, 255));
  ("beige", (245, 245, 220));
  ("bisque", (255, 228, 196));
  ("black", (0, 0, 0));
  ("blanchedalmond", (255, 235, 205));
  ("blue", (0, 0, 255));
  ("blueviolet", (138, 43, 226));
  ("brown", (165, 42, 42));
  ("burlywood", (222, 184, 135));
  ("cadetblue", (95, 158, 160));
  ("chartreuse", (127, 255, 0));
  ("chocolate", (210, 105, 30));
  ("coral", (255, 127, 80));
  ("cornflowerblue", (100, 149, 237));
  ("cornsilk", (255, 248, 220));
  ("crimson", (220, 20, 60));
  ("cyan", (0, 255, 255));
  ("darkblue", (0, 0, 139));
  ("darkcyan", (0, 139, 139));
  ("darkgoldenrod", (184, 134, 11));
  ("darkgray", (169, 169, 169));
  ("darkgreen", (0, 100, 0));
  ("darkgrey", (169, 169, 169));
  ("darkkhaki", (189, 183, 107));
  ("darkmagenta", (139, 0, 139));
  ("darkolivegreen", (85, 107, 47));
  ("darkorange", (255, 140, 0));
  ("darkorchid", (153, 50, 204));
  ("darkred", (139, 0, 0));
  ("darksalmon", (233, 150, 122));
  ("darkseagreen", (143, 188, 143));
  ("darkslateblue", (72, 61, 139));
  ("darkslategray", (47, 79, 79));
  ("darkslategrey", (47, 79, 79));
  ("darkturquoise", (0, 206, 209));
  ("darkviolet", (148, 0, 211));
  ("deeppink", (255, 20, 147));
  ("deepskyblue", (0, 191, 255));
  ("dimgray", (105, 105, 105));
  ("dimgrey", (105, 105, 105));
  ("dodgerblue", (30, 144, 255));
  ("firebrick", (178, 34, 34));
  ("floralwhite", (255, 250, 240));
  ("forestgreen", (34, 139, 34));
  ("fuchsia", (255, 0, 255));
  ("gainsboro", (220, 220, 220));
  ("ghostwhite", (248, 248, 255));
  ("gold", (255, 215, 0));
  ("goldenrod", (218, 165, 32));
  ("gray", (128, 128, 128));
  ("grey", (128, 128, 128));
  ("green", (0, 128, 0));
  ("greenyellow", (173, 255, 47));
  ("honeydew", (240, 255, 240));
  ("hotpink", (255, 105, 180));
  ("indianred", (205, 92, 92));
  ("indigo", (75, 0, 130));
  ("ivory", (255, 255, 240));
  ("khaki", (240, 230, 140));
  ("lavender", (230, 230, 250));
  ("lavenderblush", (255, 240, 245));
  ("lawngreen", (124, 252, 0));
  ("lemonchiffon", (255, 250, 205));
  ("lightblue", (173, 216, 230));
  ("lightcoral", (240, 128, 128));
  ("lightcyan", (224, 255, 255));
  ("lightgoldenrodyellow", (250, 250, 210));
  ("lightgray", (211, 211, 211));
  ("lightgreen", (144, 238, 144));
  ("lightgrey", (211, 211, 211));
  ("lightpink", (255, 182, 193));
  ("lightsalmon", (255, 160, 122));
  ("lightseagreen", (32, 178, 170));
  ("lightskyblue", (135, 206, 250));
  ("lightslategray", (119, 136, 153));
  ("lightslategrey", (119, 136, 153));
  ("lightsteelblue", (176, 196, 222));
  ("lightyellow", (255, 255, 224));
  ("lime", (0, 255, 0));
  ("limegreen", (50, 205, 50));
  ("linen", (250, 240, 230));
  ("magenta", (255, 0, 255));
  ("maroon", (128, 0, 0));
  ("mediumaquamarine", (102, 205, 170));
  ("mediumblue", (0, 0, 205));
  ("mediumorchid", (186, 85, 211));
  ("mediumpurple", (147, 112, 219));
  ("mediumseagreen", (60, 179, 113));
  ("mediumslateblue", (123, 104, 238));
  ("mediumspringgreen", (0, 250, 154));
  ("mediumturquoise", (72, 209, 204));
  ("mediumvioletred", (199, 21, 133));
  ("midnightblue", (25, 25, 112));
  ("mintcream", (245, 255, 250));
  ("mistyrose", (255, 228, 225));
  ("moccasin", (255, 228, 181));
  ("navajowhite", (255, 222, 173));
  ("navy", (0, 0, 128));
  ("oldlace", (253, 245, 230));
  ("olive", (128, 128, 0));
  ("olivedrab", (107, 142, 35));
  ("orange", (255, 165, 0));
  ("orangered", (255, 69, 0));
  ("orchid", (218, 112, 214));
  ("palegoldenrod", (238, 232, 170));
  ("palegreen", (152, 251, 152));
  ("paleturquoise", (175, 238, 238));
  ("palevioletred", (219, 112, 147));
  ("papayawhip", (255, 239, 213));
  ("peachpuff", (255, 218, 185));
  ("peru", (205, 133, 63));
  ("pink", (255, 192, 203));
  ("plum", (221, 160, 221));
  ("powderblue", (176, 224, 230));
  ("purple", (128, 0, 128));
  ("red", (255, 0, 0));
  ("rosybrown", (188, 143, 143));
  ("royalblue", (65, 105, 225));
  ("saddlebrown", (139, 69, 19));
  ("salmon", (250, 128, 114));
  ("sandybrown", (244, 164, 96));
  ("seagreen", (46, 139, 87));
  ("seashell", (255, 245, 238));
  ("sienna", (160, 82, 45));
  ("silver", (192, 192, 192));
  ("skyblue", (135, 206, 235));
  ("slateblue", (106, 90, 205));
  ("slategray", (112, 128, 144));
  ("slategrey", (112, 128, 144));
  ("snow", (255, 250, 250));
  ("springgreen", (0, 255, 127));
  ("steelblue", (70, 130, 180));
  ("tan", (210, 180, 140));
  ("teal", (0, 128, 128));
  ("thistle", (216, 191, 216));
  ("tomato", (255, 99, 71));
  ("turquoise", (64, 224, 208));
  ("violet", (238, 130, 238));
  ("wheat", (245, 222, 179));
  ("white", (255, 255, 255));
  ("whitesmoke", (245, 245, 245));
  ("yellow", (255, 255, 0));
  ("yellowgreen", (154, 205, 50))
]%string.

Fixpoint assoc_text {A} (k : text) (l : list (string * A)) : option A :=
  match l with
  | [] => None
  | (n, v) :: l' => if teqb k (T n) then Some v else assoc_text k l'
  end.

(** Color.parse_color_lookup, basic.py:679-986, for str arguments. *)
Definition parse_color_lookup (v : text) : Z :=
  let v := lower (remove_char " " v) in
  if teqb v (T "transparent") then rgb_to_int 0 0 0 0
  else match assoc_text v keyword_chain with
       | Some (r, g, b) => rgb_to_int (inject_Z r) (inject_Z g) (inject_Z b) 1
       | None => match py_int10 v with
                 | Ok n => n
                 | Err _ => rgb_to_int 0 0 0 1
                 end
       end.

(** REGEX_COLOR_HEX.match, constants.py:165: ^#?([0-9A-Fa-f]{3,8})$ where $ also matches before a
    final newline. *)
Definition newline : ascii := "010"%char.
Definition hash : ascii := "#"%char.
Definition drop_hash (s : text) : text :=
  match s with c :: r => if aeqb c hash then r else s | [] => [] end.
Definition hex_match (s : text) : bool :=
  let '(ds, rest) := span is_hex (drop_hash s) in
  let n := List.length ds in
  (3 <=? Z.of_nat n) && (Z.of_nat n <=? 8) &&
  match rest with [] => true | [c] => aeqb c newline | _ => false end.

(** Color.parse_color_hex, basic.py:989-1006. *)
Definition parse_color_hex (s : text) : Res Z :=
  let h := lstrip1 hash s in
  match h with
  | [a; b; c; d; e; f; g; i] => py_int16 h
  | [a; b; c; d; e; f] => py_int16 (h ++ ["F"; "F"]%char)
  | [a; b; c; d] => py_int16 [a; a; b; b; c; c; d; d]
  | [a; b; c] => py_int16 ([a; a; b; b; c; c] ++ ["F"; "F"]%char)
  | _ => Ok (rgb_to_int 0 0 0 1)
  end.

(** Literal text at the front. *)
Fixpoint strip_prefix (p s : text) : option text :=
  match p, s with
  | [], _ => Some s
  | x :: p', y :: s' => if aeqb x y then strip_prefix p' s' else None
  | _ :: _, [] => None
  end.

(** A PATTERN_FLOAT as matched text and rest: what a regex group captures. *)
Definition match_float_text (s : text) : option (text * fnum * text) :=
  match match_float s with
  | None => None
  | Some (f, r) => Some (firstn (List.length s - List.length r) s, f, r)
  end.

(** One argument of the colour functions: \s* FLOAT suffix \s*; [suffix] is empty or a percent sign.
    No backtracking into the number can help: what follows it is never a digit, point or e. *)
Definition match_arg (suffix : text) (s : text) : option (text * fnum * text) :=
  match match_float_text (drop_ws s) with
  | None => None
  | Some (t, f, r) =>
      match strip_prefix suffix r with
      | None => None
      | Some r => Some (t, f, drop_ws r)
      end
  end.

Record cfun : Type := mkCfun { cf_1 : text * fnum; cf_2 : text * fnum; cf_3 : text * fnum; cf_4 : option fnum }.

(** Common shape of REGEX_COLOR_RGB, REGEX_COLOR_RGB_PERCENT and REGEX_COLOR_HSL,
    constants.py:166-177: name a?( arg , arg , arg [, arg] ) anchored at the start only. *)
Definition match_cfun (name : text) (s1 s2 s3 : text) (s : text) : option cfun :=
  match strip_prefix name s with
  | None => None
  | Some r =>
      let r := match r with c :: r' => if aeqb c "a" then r' else r | [] => [] end in
      match strip_prefix ["("]%char r with
      | None => None
      | Some r =>
      match match_arg s1 r with
      | None => None
      | Some (t1, f1, r) =>
      match strip_prefix [","]%char r with
      | None => None
      | Some r =>
      match match_arg s2 r with
      | None => None
      | Some (t2, f2, r) =>
      match strip_prefix [","]%char r with
      | None => None
      | Some r =>
      match match_arg s3 r with
      | None => None
      | Some (t3, f3, r) =>
      match r with
      | c :: r' =>
          if aeqb c ")" then Some (mkCfun (t1, f1) (t2, f2) (t3, f3) None)
          else if aeqb c "," then
            match match_arg [] r' with
            | Some (_, f4, c2 :: _) =>
                if aeqb c2 ")" then Some (mkCfun (t1, f1) (t2, f2) (t3, f3) (Some f4)) else None
            | _ => None
            end
          else None
      | [] => None
      end end end end end end end
  end.

Definition percent : text := ["%"]%char.
Definition match_rgb : text -> option cfun := match_cfun (T "rgb") [] [] [].
Definition match_rgbp : text -> option cfun := match_cfun (T "rgb") percent percent percent.
Definition match_hsl : text -> option cfun := match_cfun (T "hsl") [] percent percent.

Definition opacity_of (o : option fnum) : Q := match o with None => 1%Q | Some f => fnum_val f end.

(** Color.parse_color_rgb, basic.py:1009-1018: int() of each captured text. *)
Definition parse_color_rgb (m : cfun) : Res Z :=
  do r <- py_int10 (fst (cf_1 m));
  do g <- py_int10 (fst (cf_2 m));
  do b <- py_int10 (fst (cf_3 m));
  Ok (rgb_to_int (inject_Z r) (inject_Z g) (inject_Z b) (opacity_of (cf_4 m))).

(** Color.parse_color_rgbp, basic.py:1021-1031. *)
Definition parse_color_rgbp (m : cfun) : Z :=
  let ratio := (255 / 100)%Q in
  let ch f := inject_Z (Qround_even (fnum_val f * ratio)) in
  rgb_to_int (ch (snd (cf_1 m))) (ch (snd (cf_2 m))) (ch (snd (cf_3 m))) (opacity_of (cf_4 m)).

Definition clamp01 (q : Q) : Q :=
  let q := if Qltb 1 q then 1%Q else q in if Qltb q 0 then 0%Q else q.

(** Color.parse_color_hsl, basic.py:1034-1052. Angle.parse of a bare number followed by as_turns
    (basic.py:1850-1868, 1903-1905) is division by 360 in exact arithmetic. *)
Definition parse_color_hsl (m : cfun) : Z :=
  let h := (fnum_val (snd (cf_1 m)) / 360)%Q in
  let s := clamp01 (fnum_val (snd (cf_2 m)) / 100) in
  let l := clamp01 (fnum_val (snd (cf_3 m)) / 100) in
  hsl_to_int h s l (opacity_of (cf_4 m)).

(** Color.parse, basic.py:660-676, for str arguments. *)
Definition parse (s : text) : Res color :=
  if teqb s (T "none") then Ok None
  else if hex_match s then rmap Some (parse_color_hex s)
  else match match_rgb s with
  | Some m => rmap Some (parse_color_rgb m)
  | None =>
  match match_rgbp s with
  | Some m => Ok (Some (parse_color_rgbp m))
  | None =>
  match match_hsl s with
  | Some m => Ok (Some (parse_color_hsl m))
  | None => Ok (Some (parse_color_lookup s))
  end end end.

(** Color.rgb / rgba / argb properties, basic.py:1097-1125. *)
Definition get_alpha (v : Z) : Z := Z.land v 0xFF.                      (* 1142-1143 *)
Definition get_red (v : Z) : Z := Z.land (Z.shiftr v 24) 0xFF.          (* 1154-1155 *)
Definition get_green (v : Z) : Z := Z.land (Z.shiftr v 16) 0xFF.        (* 1166-1167 *)
Definition get_blue (v : Z) : Z := Z.land (Z.shiftr v 8) 0xFF.          (* 1178-1179 *)
Definition get_rgb (v : Z) : Z := Z.shiftr v 8.                         (* 1097-1101 *)
Definition set_rgb (rgb : Z) : Z := Z.lor (Z.shiftl rgb 8) 0xFF.        (* 1103-1107 *)
Definition get_argb (v : Z) : Z :=                                      (* 1117-1121 *)
  Z.lor (Z.land (Z.shiftr v 8) 0xFFFFFF) (Z.shiftl (get_alpha v) 24).
Definition set_argb (argb : Z) : Z :=                                   (* 1123-1125 *)
  Z.lor (Z.land (Z.shiftl argb 8) 0xFFFFFF00) (Z.land (Z.shiftr argb 24) 0xFF).

(** Channel setters, basic.py:1145-1185; on a None colour they raise ValueError. *)
Definition set_alpha (c : color) (a : Q) : Res color :=
  match c with None => Err ValueError
  | Some v => Ok (Some (Z.lor (Z.land v (Z.lnot 0xFF)) (crimp a))) end.
Definition set_red (c : color) (r : Q) : Res color :=
  match c with None => Err ValueError
  | Some v => Ok (Some (Z.lor (Z.land v (Z.lnot 0xFF000000)) (Z.shiftl (crimp r) 24))) end.
Definition set_green (c : color) (g : Q) : Res color :=
  match c with None => Err ValueError
  | Some v => Ok (Some (Z.lor (Z.land v (Z.lnot 0xFF0000)) (Z.shiftl (crimp g) 16))) end.
Definition set_blue (c : color) (b : Q) : Res color :=
  match c with None => Err ValueError
  | Some v => Ok (Some (Z.lor (Z.land v (Z.lnot 0xFF00)) (Z.shiftl (crimp b) 8))) end.
(** opacity setter and getter, basic.py:1127-1137. *)
Definition set_opacity (c : color) (o : Q) : Res color :=
  match c with None => Err ValueError
  | Some _ => set_alpha c (inject_Z (crimp (inject_Z (Qround_even (o * 255))))) end.
Definition get_opacity (v : Z) : Q := (inject_Z (get_alpha v) / 255)%Q.

(** Color.__eq__ between colours, basic.py:587-600. *)
Definition color_eq (a b : color) : bool :=
  match a, b with
  | None, None => true
  | None, Some _ | Some _, None => false
  | Some x, Some y => Z.land x 0xFFFFFFFF =? Z.land y 0xFFFFFFFF
  end.

(** An argument that may be text, an integer or a colour. *)
Inductive carg : Type := AStr (s : text) | AInt (n : Z) | ACol (c : color).

(** Color(v) with one positional argument, basic.py:508-518. *)
Definition color_of (a : carg) : Res color :=
  match a with
  | AStr s => parse s
  | AInt n => Ok (Some (set_rgb n))
  | ACol c => Ok c
  end.
(** Color(v, opacity), basic.py:519-527. *)
Definition color_of2 (a : carg) (o : Q) : Res color :=
  do c <- color_of a; set_opacity c o.
(** Color(r, g, b) and Color(r, g, b, a), basic.py:528-538. *)
Definition color_rgb (r g b : Q) : color := Some (rgb_to_int r g b 1).
Definition color_rgba (r g b a : Q) : color := Some (rgb_to_int r g b (a / 255)).

(** __eq__ against text or integers, basic.py:587-600: text is parsed, an integer is compared raw. *)
Definition color_eq_arg (a : color) (b : carg) : Res bool :=
  match b with
  | AStr s => do c <- parse s; Ok (color_eq a c)
  | AInt n => Ok (color_eq a (Some n))
  | ACol c => Ok (color_eq a c)
  end.

(** "%02x" on a channel value in 0..255 (basic.py:1188-1202). *)
Definition hex_digit (n : Z) : ascii := if n <? 10 then chr (48 + n) else chr (87 + n).
Definition hex2 (n : Z) : text := [hex_digit (n / 16); hex_digit (n mod 16)].
(** Color.hexa and Color.hex, basic.py:1187-1204. For a None colour hexa and hex are None. *)
Definition hexa (v : Z) : text :=
  hash :: hex2 (get_red v) ++ hex2 (get_green v) ++ hex2 (get_blue v) ++ hex2 (get_alpha v).
Definition hex (v : Z) : text :=
  if get_alpha v =? 0xFF then hash :: hex2 (get_red v) ++ hex2 (get_green v) ++ hex2 (get_blue v)
  else hexa v.
(** Color.__str__, basic.py:577-580: "None" for the None colour. *)
Definition color_str (c : color) : text := match c with None => T "None" | Some v => hex v end.
(** Color.__abs__, basic.py:605-609. Color(None) goes through Color.parse(None), which is None. *)
Definition color_abs (c : color) : color :=
  match c with
  | None => None
  | Some v => color_rgb (inject_Z (get_red v)) (inject_Z (get_green v)) (inject_Z (get_blue v))
  end.

Definition Qmin3 (a b c : Q) : Q :=
  let m := if Qltb b a then b else a in if Qltb c m then c else m.
Definition Qmax3 (a b c : Q) : Q :=
  let m := if Qltb a b then b else a in if Qltb m c then c else m.

Definition chan01 (n : Z) : Q := (inject_Z n / 255)%Q.

(** Color.hue in turns, basic.py:1206-1231, before the final conversion to degrees. *)
Definition hue_turns (v : Z) : Q :=
  let r := chan01 (get_red v) in
  let g := chan01 (get_green v) in
  let b := chan01 (get_blue v) in
  let var_min := Qmin3 r g b in
  let var_max := Qmax3 r g b in
  let delta_max := (var_max - var_min)%Q in
  if Qeq_bool delta_max 0 then 0%Q
  else
    let dr := ((((var_max - r) / 6) + delta_max / 2) / delta_max)%Q in
    let dg := ((((var_max - g) / 6) + delta_max / 2) / delta_max)%Q in
    let db := ((((var_max - b) / 6) + delta_max / 2) / delta_max)%Q in
    let h := if Qeq_bool r var_max then (db - dg)%Q
             else if Qeq_bool g var_max then ((1 # 3) + dr - db)%Q
             else ((2 # 3) + dg - dr)%Q in
    let h := if Qltb h 0 then (h + 1)%Q else h in
    if Qltb 1 h then (h - 1)%Q else h.
(** Color.hue, basic.py:1206-1231: Angle.turns(h).as_degrees is 360*h in exact arithmetic. *)
Definition get_hue (v : Z) : Q := (360 * hue_turns v)%Q.
(** Color.saturation, basic.py:1240-1255. *)
Definition get_saturation (v : Z) : Q :=
  let r := chan01 (get_red v) in
  let g := chan01 (get_green v) in
  let b := chan01 (get_blue v) in
  let mn := Qmin3 r g b in
  let mx := Qmax3 r g b in
  let delta := (mx - mn)%Q in
  if Qeq_bool mx mn then 0%Q
  else if Qltb (mx + mn) 1 then (delta / (mx + mn))%Q
  else (delta / (2 - mx - mn))%Q.
(** Color.lightness, basic.py:1264-1273. *)
Definition get_lightness (v : Z) : Q :=
  let r := chan01 (get_red v) in
  let g := chan01 (get_green v) in
  let b := chan01 (get_blue v) in
  ((Qmax3 r g b + Qmin3 r g b) / 2)%Q.
(** hsl setter with a 3-tuple, basic.py:1413-1420. *)
Definition set_hsl (h s l : Q) : color := Some (hsl_to_int h s l 1).
(** hue / saturation / lightness setters, basic.py:1233-1238, 1257-1262, 1275-1280. *)
Definition set_hue (c : color) (x : Q) : Res color :=
  match c with None => Err ValueError
  | Some v => Ok (set_hsl x (get_saturation v) (get_lightness v)) end.
Definition set_saturation (c : color) (x : Q) : Res color :=
  match c with None => Err ValueError
  | Some v => Ok (set_hsl (get_hue v) x (get_lightness v)) end.
Definition set_lightness (c : color) (x : Q) : Res color :=
  match c with None => Err ValueError
  | Some v => Ok (set_hsl (get_hue v) (get_saturation v) x) end.

(** intensity, brightness, blackness, luminance, luma, basic.py:1282-1323. *)
Definition get_intensity (v : Z) : Q := (inject_Z (get_red v + get_blue v + get_green v) / 768)%Q.
Definition get_brightness (v : Z) : Q :=
  (inject_Z (Z.max (Z.max (get_red v) (get_green v)) (get_blue v)) / 255)%Q.
Definition get_blackness (v : Z) : Q := (1 - get_brightness v)%Q.
Definition get_luminance (v : Z) : Q :=
  (chan01 (get_red v) * (30 # 100) + chan01 (get_green v) * (59 # 100) + chan01 (get_blue v) * (11 # 100))%Q.
Definition get_luma (v : Z) : Q :=
  (chan01 (get_red v) * (2126 # 10000) + chan01 (get_green v) * (7152 # 10000)
   + chan01 (get_blue v) * (722 # 10000))%Q.

(** Color.over on two colour values, basic.py:1337-1362 (after the argument conversion). *)
Definition over_zz (v1 v2 : Z) : Z :=
  let a1 := get_alpha v1 in
  if a1 =? 255 then v1
  else if a1 =? 0 then v2
  else
    let a2 := get_alpha v2 in
    let q := 255 - a1 in
    let mix x y := inject_Z (x * a1 * 255 + y * a2 * q) in
    let sr := mix (get_red v1) (get_red v2) in
    let sg := mix (get_green v1) (get_green v2) in
    let sb := mix (get_blue v1) (get_blue v2) in
    let sa := inject_Z (a1 * 255 + a2 * q) in
    rgb_to_int (sr / sa) (sg / sa) (sb / sa) (sa / (255 * 255)).

(** Argument conversion of Color.over, basic.py:1331-1338: text goes through Color.parse, which
    returns a plain int (or None) and not a Color; [None] stands for that. *)
Definition over_conv (a : carg) : Res (option color) :=
  match a with
  | AStr s => rmap (fun _ => None) (parse s)
  | AInt n => Ok (Some (Some (set_rgb n)))
  | ACol c => Ok (Some c)
  end.
(** Color.over, basic.py:1326-1362. Reading .red of a plain int raises AttributeError. A None c1 has
    channels None and the product raises TypeError. c2 is only touched if c1 is not opaque. *)
Definition over (a1 a2 : carg) : Res color :=
  do p1 <- over_conv a1;
  do p2 <- over_conv a2;
  match p1 with
  | None => Err AttributeError
  | Some None => match p2 with None => Err AttributeError | Some _ => Err TypeError end
  | Some (Some v1) =>
      match p2 with
      | Some (Some v2) => Ok (Some (over_zz v1 v2))
      | Some None =>
          if get_alpha v1 =? 255 then Ok (Some v1)
          else if get_alpha v1 =? 0 then Ok None else Err TypeError
      | None => if get_alpha v1 =? 255 then Ok (Some v1) else Err AttributeError
      end
  end.

(** Color.blend, basic.py:1425-1434. *)
Definition blend (self : color) (other : carg) (opacity : option Q) : Res color :=
  match opacity with
  | None => over other (ACol self)
  | Some o => do c <- color_of other; do c <- set_opacity c o; over (ACol c) (ACol self)
  end.

(** Color.distance_sq on two colours, basic.py:1385-1397. In Python + binds tighter than >>, so the
    last shift applies to the whole sum. *)
Definition distance_sq (v1 v2 : Z) : Z :=
  let red_mean := Qtrunc (inject_Z (get_red v1 + get_red v2) / 2) in
  let r := get_red v1 - get_red v2 in
  let g := get_green v1 - get_green v2 in
  let b := get_blue v1 - get_blue v2 in
  Z.shiftr (Z.shiftr ((512 + red_mean) * r * r) 8 + 4 * g * g + (767 - red_mean) * b * b) 8.

(** Color.distinct, basic.py:1055-1095. [icbrt] is int(pattern ** (1.0 / 3.0)). *)
Definition set3 (p : Z * Z * Z) (i : Z) (x : Z) : Z * Z * Z :=
  let '(a, b, c) := p in
  if i =? 0 then (x, b, c) else if i =? 1 then (a, x, c) else (a, b, x).
Definition pattern (icbrt : Z -> Z) (index : Z) : Z * Z * Z :=
  let n := icbrt index in
  let pat := index - n * n * n in
  let p := (n, n, n) in
  if pat =? 0 then p
  else
    let pat := pat - 1 in
    let v := pat mod 3 in
    let pat := pat / 3 in
    if pat <? n then set3 p v (pat mod n)
    else
      let pat := pat - n in
      let p := set3 p v (pat / n) in
      let v := v + 1 in
      set3 p (v mod 3) (pat mod n).
Fixpoint rev_loop (k : nat) (v value : Z) : Z :=
  match k with
  | O => v
  | S k' => rev_loop k' (Z.shiftl (Z.lor v (Z.land value 1)) 1) (Z.shiftr value 1)
  end.
Definition reverse8 (r : Z) : Z := Z.land (Z.shiftr (rev_loop 8 0 (r - 1)) 1) 0xFF.
Definition distinct (icbrt : Z -> Z) (index : Z) : color :=
  let '(a, b, c) := pattern icbrt index in
  color_rgb (inject_Z (reverse8 a)) (inject_Z (reverse8 b)) (inject_Z (reverse8 c)).
