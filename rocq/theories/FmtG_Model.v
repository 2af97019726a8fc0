(** Python "%.<P>G" formatting on exact rationals, Point.__str__ and Point(text),
    svgio/basic.py:1449-1457, 1524-1535. *)
Require Import ZArith QArith Qabs Ascii String List Bool.
Require Import Verif.Base Verif.Fmt_Model Verif.Viewbox_Model.
Import ListNotations.
Open Scope Z_scope.

Definition ndigits (n : Z) : Z := Z.of_nat (List.length (digits n)).
(** The decimal exponent of a positive number: 10^e <= q < 10^(e+1). *)
Definition exp10 (q : Q) : Z :=
  let k := ndigits (Qnum q) - ndigits (Zpos (Qden q)) in
  if Qle_bool (ten_pow k) q then k else k - 1.
(** The exponent as printed: sign and at least two digits. *)
Definition exp_text (e : Z) : text :=
  (if e <? 0 then "-"%char else "+"%char) ::
  (if Z.abs e <? 10 then ["0"%char] else []) ++ map dch (digits (Z.abs e)).
(** "%.<P>G" % q for a float q (basic.py:1526, path.py:1929-1931): [p] significant digits rounded half-even,
    fixed notation for exponents -4 <= e < p, else scientific; trailing zeros (and a trailing point) removed.
    A negative zero is not modelled. *)
Definition fmt_G (p : Z) (q : Q) : text :=
  let a := Qabs q in
  if Qeq_bool a 0 then ["0"%char]
  else
    let e0 := exp10 a in
    let m0 := Qround_even (a * ten_pow (p - 1 - e0)) in
    let '(m, e) := if m0 =? 10 ^ p then (10 ^ (p - 1), e0 + 1) else (m0, e0) in
    (if Qltb q 0 then ["-"%char] else []) ++
    if (-4 <=? e) && (e <? p) then
      let dec := p - 1 - e in
      strip_zeros (map dch (digits (m / 10 ^ dec)) ++ "."%char :: map dch (fixed_digits (Z.to_nat dec) (m mod 10 ^ dec)))
    else
      strip_zeros (map dch (digits (m / 10 ^ (p - 1))) ++ "."%char :: map dch (fixed_digits (Z.to_nat (p - 1)) (m mod 10 ^ (p - 1))))
      ++ "E"%char :: exp_text e.
(** One coordinate of Point.__str__, basic.py:1525-1534: the zeros are stripped again if there is a point. *)
Definition coord_str (q : Q) : text :=
  let s := fmt_G 12 q in if contains ["."%char] s then strip_zeros s else s.
(** Point.__str__, basic.py:1524-1535. *)
Definition point_str (x y : Q) : text := coord_str x ++ ","%char :: coord_str y.

(** PATTERN_COMMA, constants.py:118: the text behind it. The three alternatives cannot both lead to a
    number, so no backtracking is needed. *)
Definition match_comma (s : text) : option text :=
  match drop_ws s with
  | c :: r => if aeqb c "," then Some (drop_ws r)
              else if match s with w :: _ => is_ws w | [] => false end then Some (c :: r)
              else if aeqb c "-" then Some s else None
  | [] => None
  end.
(** REGEX_COORD_PAIR.findall(s)[0], constants.py:156-158: the leftmost match. A shorter first number is
    never followed by a separator, so it is not tried. *)
Definition match_pair (s : text) : option (Q * Q) :=
  match match_float s with
  | None => None
  | Some (f, r) =>
      match match_comma r with
      | None => None
      | Some r => match match_float r with Some (g, _) => Some (fnum_val f, fnum_val g) | None => None end
      end
  end.
Fixpoint find_pair (s : text) : option (Q * Q) :=
  match match_pair s with
  | Some p => Some p
  | None => match s with [] => None | _ :: s' => find_pair s' end
  end.
(** Point(text), basic.py:1449-1454: findall(...)[0] raises IndexError without a match. *)
Definition point_of_text (s : text) : Res (Q * Q) :=
  match find_pair s with Some p => Ok p | None => Err IndexError end.
