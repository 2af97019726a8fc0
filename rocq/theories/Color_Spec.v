(** Independent specification for colours: channel arithmetic, CSS notations, the SVG 1.1 keyword
    table, Porter-Duff compositing and the CSS HSL formula. Nothing here refers to the model. *)
Require Import ZArith QArith Qround Ascii String List Bool.
Require Import Verif.Text_Spec.
Import ListNotations.
Open Scope Z_scope.

(** Four 8-bit channels. *)
Record rgba := mkRGBA { cR : Z; cG : Z; cB : Z; cA : Z }.
Definition byte (n : Z) : Prop := 0 <= n <= 255.
Definition rgba_ok (c : rgba) : Prop := byte (cR c) /\ byte (cG c) /\ byte (cB c) /\ byte (cA c).
(** RRGGBBAA packing, arithmetically. *)
Definition pack (c : rgba) : Z := cR c * 2^24 + cG c * 2^16 + cB c * 2^8 + cA c.
Definition unpack (v : Z) : rgba :=
  mkRGBA ((v / 2^24) mod 256) ((v / 2^16) mod 256) ((v / 2^8) mod 256) (v mod 256).
Definition pack_argb (c : rgba) : Z := cA c * 2^24 + cR c * 2^16 + cG c * 2^8 + cB c.

(** [n] is the number [q] truncated and saturated into 0..255. *)
Definition saturates (q : Q) (n : Z) : Prop :=
  ((q <= 0)%Q -> n = 0) /\ ((255 <= q)%Q -> n = 255) /\
  ((0 <= q)%Q -> (q <= 255)%Q -> (inject_Z n <= q)%Q /\ (q < inject_Z n + 1)%Q).

(** [n] is a nearest integer to [q] (ties to the even one). *)
Definition nearest (q : Q) (n : Z) : Prop :=
  (inject_Z n - (1#2) <= q)%Q /\ (q <= inject_Z n + (1#2))%Q /\
  ((q == inject_Z n - (1#2))%Q \/ (q == inject_Z n + (1#2))%Q -> Z.even n = true).

Definition clamp255 (n : Z) : Z := Z.max 0 (Z.min 255 n).
Definition unit_clamp (q q' : Q) : Prop :=
  ((q <= 0)%Q -> (q' == 0)%Q) /\ ((1 <= q)%Q -> (q' == 1)%Q) /\
  ((0 <= q)%Q -> (q <= 1)%Q -> (q' == q)%Q).

(** Hexadecimal digits by table. *)
Definition xdig (c : ascii) : option Z :=
  match c with
  | "0" => Some 0 | "1" => Some 1 | "2" => Some 2 | "3" => Some 3 | "4" => Some 4
  | "5" => Some 5 | "6" => Some 6 | "7" => Some 7 | "8" => Some 8 | "9" => Some 9
  | "a" | "A" => Some 10 | "b" | "B" => Some 11 | "c" | "C" => Some 12
  | "d" | "D" => Some 13 | "e" | "E" => Some 14 | "f" | "F" => Some 15
  | _ => None
  end%char.

(** CSS Color 4, hex notation: meaning of the digits after the optional #. *)
Inductive css_hex : list ascii -> rgba -> Prop :=
| css_hex8 : forall a b c d e f g h A B C D E F G H,
    xdig a = Some A -> xdig b = Some B -> xdig c = Some C -> xdig d = Some D ->
    xdig e = Some E -> xdig f = Some F -> xdig g = Some G -> xdig h = Some H ->
    css_hex [a;b;c;d;e;f;g;h] (mkRGBA (16*A+B) (16*C+D) (16*E+F) (16*G+H))
| css_hex6 : forall a b c d e f A B C D E F,
    xdig a = Some A -> xdig b = Some B -> xdig c = Some C -> xdig d = Some D ->
    xdig e = Some E -> xdig f = Some F ->
    css_hex [a;b;c;d;e;f] (mkRGBA (16*A+B) (16*C+D) (16*E+F) 255)
| css_hex4 : forall a b c d A B C D,
    xdig a = Some A -> xdig b = Some B -> xdig c = Some C -> xdig d = Some D ->
    css_hex [a;b;c;d] (mkRGBA (17*A) (17*B) (17*C) (17*D))
| css_hex3 : forall a b c A B C,
    xdig a = Some A -> xdig b = Some B -> xdig c = Some C ->
    css_hex [a;b;c] (mkRGBA (17*A) (17*B) (17*C) 255).

(** SVG 1.1 section 4.4 recognised color keyword names, as RRGGBB. *)
Definition svg11_keywords : list (string * Z) := [
("aliceblue",0xF0F8FF);("antiquewhite",0xFAEBD7);("aqua",0x00FFFF);("aquamarine",0x7FFFD4);
("azure",0xF0FFFF);("beige",0xF5F5DC);("bisque",0xFFE4C4);("black",0x000000);
("blanchedalmond",0xFFEBCD);("blue",0x0000FF);("blueviolet",0x8A2BE2);("brown",0xA52A2A);
("burlywood",0xDEB887);("cadetblue",0x5F9EA0);("chartreuse",0x7FFF00);("chocolate",0xD2691E);
("coral",0xFF7F50);("cornflowerblue",0x6495ED);("cornsilk",0xFFF8DC);("crimson",0xDC143C);
("cyan",0x00FFFF);("darkblue",0x00008B);("darkcyan",0x008B8B);("darkgoldenrod",0xB8860B);
("darkgray",0xA9A9A9);("darkgreen",0x006400);("darkgrey",0xA9A9A9);("darkkhaki",0xBDB76B);
("darkmagenta",0x8B008B);("darkolivegreen",0x556B2F);("darkorange",0xFF8C00);("darkorchid",0x9932CC);
("darkred",0x8B0000);("darksalmon",0xE9967A);("darkseagreen",0x8FBC8F);("darkslateblue",0x483D8B);
("darkslategray",0x2F4F4F);("darkslategrey",0x2F4F4F);("darkturquoise",0x00CED1);("darkviolet",0x9400D3);
("deeppink",0xFF1493);("deepskyblue",0x00BFFF);("dimgray",0x696969);("dimgrey",0x696969);
("dodgerblue",0x1E90FF);("firebrick",0xB22222);("floralwhite",0xFFFAF0);("forestgreen",0x228B22);
("fuchsia",0xFF00FF);("gainsboro",0xDCDCDC);("ghostwhite",0xF8F8FF);("gold",0xFFD700);
("goldenrod",0xDAA520);("gray",0x808080);("grey",0x808080);("green",0x008000);
("greenyellow",0xADFF2F);("honeydew",0xF0FFF0);("hotpink",0xFF69B4);("indianred",0xCD5C5C);
("indigo",0x4B0082);("ivory",0xFFFFF0);("khaki",0xF0E68C);("lavender",0xE6E6FA);
("lavenderblush",0xFFF0F5);("lawngreen",0x7CFC00);("lemonchiffon",0xFFFACD);("lightblue",0xADD8E6);
("lightcoral",0xF08080);("lightcyan",0xE0FFFF);("lightgoldenrodyellow",0xFAFAD2);("lightgray",0xD3D3D3);
("lightgreen",0x90EE90);("lightgrey",0xD3D3D3);("lightpink",0xFFB6C1);("lightsalmon",0xFFA07A);
("lightseagreen",0x20B2AA);("lightskyblue",0x87CEFA);("lightslategray",0x778899);("lightslategrey",0x778899);
("lightsteelblue",0xB0C4DE);("lightyellow",0xFFFFE0);("lime",0x00FF00);("limegreen",0x32CD32);
("linen",0xFAF0E6);("magenta",0xFF00FF);("maroon",0x800000);("mediumaquamarine",0x66CDAA);
("mediumblue",0x0000CD);("mediumorchid",0xBA55D3);("mediumpurple",0x9370DB);("mediumseagreen",0x3CB371);
("mediumslateblue",0x7B68EE);("mediumspringgreen",0x00FA9A);("mediumturquoise",0x48D1CC);("mediumvioletred",0xC71585);
("midnightblue",0x191970);("mintcream",0xF5FFFA);("mistyrose",0xFFE4E1);("moccasin",0xFFE4B5);
("navajowhite",0xFFDEAD);("navy",0x000080);("oldlace",0xFDF5E6);("olive",0x808000);
("olivedrab",0x6B8E23);("orange",0xFFA500);("orangered",0xFF4500);("orchid",0xDA70D6);
("palegoldenrod",0xEEE8AA);("palegreen",0x98FB98);("paleturquoise",0xAFEEEE);("palevioletred",0xDB7093);
("papayawhip",0xFFEFD5);("peachpuff",0xFFDAB9);("peru",0xCD853F);("pink",0xFFC0CB);
("plum",0xDDA0DD);("powderblue",0xB0E0E6);("purple",0x800080);("red",0xFF0000);
("rosybrown",0xBC8F8F);("royalblue",0x4169E1);("saddlebrown",0x8B4513);("salmon",0xFA8072);
("sandybrown",0xF4A460);("seagreen",0x2E8B57);("seashell",0xFFF5EE);("sienna",0xA0522D);
("silver",0xC0C0C0);("skyblue",0x87CEEB);("slateblue",0x6A5ACD);("slategray",0x708090);
("slategrey",0x708090);("snow",0xFFFAFA);("springgreen",0x00FF7F);("steelblue",0x4682B4);
("tan",0xD2B48C);("teal",0x008080);("thistle",0xD8BFD8);("tomato",0xFF6347);
("turquoise",0x40E0D0);("violet",0xEE82EE);("wheat",0xF5DEB3);("white",0xFFFFFF);
("whitesmoke",0xF5F5F5);("yellow",0xFFFF00);("yellowgreen",0x9ACD32)]%string.
Definition opaque (rgb : Z) : rgba :=
  mkRGBA (rgb / 2^16) ((rgb / 2^8) mod 256) (rgb mod 256) 255.

(** Spellings of a lower-case keyword: any letter may be upper case, spaces may be anywhere. *)
Definition case_variant (c c' : ascii) : Prop :=
  c' = c \/ (N_of_ascii c' + 32 = N_of_ascii c)%N.
Inductive spelling : list ascii -> list ascii -> Prop :=
| sp_nil : spelling [] []
| sp_space : forall n s, spelling n s -> spelling n (" "%char :: s)
| sp_char : forall c c' n s, case_variant c c' -> spelling n s -> spelling (c :: n) (c' :: s).

(** Porter-Duff source-over on alphas and colours in the unit interval. *)
Definition pd_alpha (a1 a2 : Q) : Q := (a1 + a2 * (1 - a1))%Q.
Definition pd_color (c1 a1 c2 a2 : Q) : Q := ((c1 * a1 + c2 * a2 * (1 - a1)) / pd_alpha a1 a2)%Q.
Definition unit (n : Z) : Q := (inject_Z n / 255)%Q.

(** CSS Color 4, section 7.1 (hslToRgb): channel n of hue h (in turns), saturation s, lightness l.
    f(n) = l - a max(-1, min(k-3, 9-k, 1)), k = (n + 12 h) mod 12, a = s min(l, 1-l). *)
Definition Qmod12 (x : Q) : Q := (x - 12 * inject_Z (Qfloor (x / 12)))%Q.
Definition qmin (a b : Q) : Q := if Qle_bool a b then a else b.
Definition qmax (a b : Q) : Q := if Qle_bool a b then b else a.
Definition css_hsl_channel (n : Q) (h s l : Q) : Q :=
  let k := Qmod12 (n + 12 * h) in
  let a := (s * qmin l (1 - l))%Q in
  (l - a * qmax (-1) (qmin (qmin (k - 3) (9 - k)) 1))%Q.

(** The alpha byte of an opacity: clamped to [0,1], scaled by 255, rounded to nearest. *)
Definition alpha_byte (o : Q) (a : Z) : Prop := exists u, unit_clamp o u /\ nearest (u * 255) a.

(** Text of a colour function call with white space around every argument. *)
Definition arg_text (w : list ascii) (l : lit) (suffix w' : list ascii) : list ascii :=
  w ++ lit_text l ++ suffix ++ w'.
Definition cfun_text (name : list ascii) (with_a : bool) (a1 a2 a3 : list ascii) (a4 : option (list ascii)) (tail : list ascii) : list ascii :=
  name ++ (if with_a then ["a"%char] else []) ++ "("%char :: a1 ++ ","%char :: a2 ++ ","%char :: a3 ++
  (match a4 with None => [] | Some t => ","%char :: t end) ++ ")"%char :: tail.


(** An integer cube root that is exact below 256^3. *)
Definition exact_cbrt (icbrt : Z -> Z) : Prop :=
  forall i, 0 <= i < 256 * 256 * 256 -> 0 <= icbrt i /\ icbrt i * icbrt i * icbrt i <= i < (icbrt i + 1) * (icbrt i + 1) * (icbrt i + 1).


(** The optional fourth (alpha) argument: white space, literal, white space. *)
Definition opt_ok (o : option (list ascii * lit * list ascii)) : Prop :=
  match o with None => True | Some (w4, l4, w4') => Forall wsp w4 /\ Forall wsp w4' /\ lit_ok l4 end.
Definition opt_text (o : option (list ascii * lit * list ascii)) : option (list ascii) :=
  match o with None => None | Some (w4, l4, w4') => Some (arg_text w4 l4 [] w4') end.
Definition opt_val (o : option (list ascii * lit * list ascii)) : Q :=
  match o with None => 1 | Some (_, l4, _) => lit_val l4 end.
(** An integer argument: sign and digits only. *)
Definition int_arg (w : list ascii) (s : sgn) (ds : list Z) (w' : list ascii) : list ascii := arg_text w (mkLit s ds [] None) [] w'.

