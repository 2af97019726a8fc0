(** Point of svgio/basic.py:1437-1829 on the reals, without convex_hull and printing
    (Hull_Model.v, Fmt). *)
Require Import Reals.
Require Import Verif.Angle_Model.
Open Scope R_scope.

Record pt := P { px : R; py : R }.

(** The right operand of arithmetic: a Point (.x/.y), a pair ([0]/[1]), a complex or a plain number
    (.real/.imag); all reach the same pair of coordinates. A str operand of * is a Matrix (Matrix_Model). *)
Inductive parg := APoint (p : pt) | APair (x y : R) | AComplex (re im : R) | ANumber (v : R).
Definition coords (a : parg) : pt :=
  match a with APoint p => p | APair x y => P x y | AComplex x y => P x y | ANumber v => P v 0 end.

(** __add__, __sub__, __rsub__, basic.py:1622-1719. *)
Definition p_add (p : pt) (a : parg) : pt := let q := coords a in P (px p + px q) (py p + py q).
Definition p_sub (p : pt) (a : parg) : pt := let q := coords a in P (px p - px q) (py p - py q).
Definition p_rsub (p : pt) (a : parg) : pt := let q := coords a in P (px q - px p) (py q - py p).
(** __mul__ for non-matrix operands, basic.py:1573-1595: Python complex multiplication. *)
Definition p_mul (p : pt) (a : parg) : pt :=
  let q := coords a in P (px p * px q - py p * py q) (px p * py q + py p * px q).
(** math.hypot and __abs__, basic.py:1724-1725. *)
Definition hypot (x y : R) : R := sqrt (x * x + y * y).
Definition p_abs (p : pt) : R := hypot (px p) (py p).
(** conjugate, basic.py:1735-1736. *)
Definition conjugate (p : pt) : pt := P (px p) (- py p).

(** math.atan2 *)
Definition atan2 (y x : R) : R :=
  if Rlt_dec 0 x then atan (y / x)
  else if Rlt_dec x 0 then (if Rlt_dec y 0 then atan (y / x) - PI else atan (y / x) + PI)
  else if Rlt_dec 0 y then PI / 2 else if Rlt_dec y 0 then - (PI / 2) else 0.

(** argz, basic.py:1738-1739; division by a zero real part raises ZeroDivisionError: [None]. *)
Definition argz (p : pt) : option R := if Req_EM_T (px p) 0 then None else Some (atan (py p / px p)).
(** __pow__ before rounding, basic.py:1727-1733 (the code then rounds both parts to integers), for
    a natural exponent. *)
Definition p_pow_exact (p : pt) (n : nat) : option pt :=
  match argz p with
  | None => None
  | Some a => Some (P (p_abs p ^ n * cos (a * INR n)) (p_abs p ^ n * sin (a * INR n)))
  end.

(** distance_to, distance, basic.py:1760-1761, 1807-1813. *)
Definition distance_to (p q : pt) : R := p_abs (p_sub p (APoint q)).
Definition distance (p q : pt) : R := sqrt ((px p - px q) * (px p - px q) + (py p - py q) * (py p - py q)).
(** angle_to and angle, basic.py:1763-1765, 1821-1823. *)
Definition angle_to (p q : pt) : R := let d := p_sub q (APoint p) in radians (atan2 (py d) (px d)).
Definition angle (p q : pt) : R := radians (atan2 (py q - py p) (px q - px p)).
(** polar and polar_to, basic.py:1767-1771, 1815-1819. *)
Definition polar (p : pt) (a r : R) : pt := P (px p + cos a * r) (py p + sin a * r).
(** reflected_across, basic.py:1773-1774. *)
Definition reflected_across (s p : pt) : pt := p_add p (APoint (p_sub p (APoint s))).
(** towards, basic.py:1825-1829, and move_towards, 1755-1758 (amount * Point is __rmul__). *)
Definition towards (p q : pt) (t : R) : pt := P (t * (px q - px p) + px p) (t * (py q - py p) + py p).
Definition move_towards (p q : pt) (t : R) : pt := p_add p (APoint (p_mul (p_sub q (APoint p)) (ANumber t))).
(** __eq__ on points, basic.py:1484-1493, ERROR = 1e-12. *)
Definition p_eq (p q : pt) : Prop := Rabs (px p - px q) <= / 10 ^ 12 /\ Rabs (py p - py q) <= / 10 ^ 12.
