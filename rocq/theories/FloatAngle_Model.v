(** Angle of svgio/basic.py:1832-1908 in binary floating point. Angle_Model models it on the real numbers. *)
Require Import ZArith List Bool.
From Flocq Require Import Core BinarySingleNaN.
Require Import Verif.Float_Model.
Open Scope Z_scope.

(** m * 2^e as a float. *)
Definition fnorm (m e : Z) : fl := binary_normalize 53 1024 p53 p1024 mode_NE m e false.
(** math.tau, and 1e-11 as Python reads it. *)
Definition ftau : fl := fnorm 7074237752028440 (-50).
Definition f1e11 : fl := fnorm 6189700196426901 (-89).

(** fmod of the C library, which is exact: the remainder of x for y with the sign of x. *)
Definition frem (x y : fl) : fl :=
  match x, y with
  | B754_finite sx mx ex _, B754_finite _ my ey _ =>
      let e := Z.min ex ey in
      binary_normalize 53 1024 p53 p1024 mode_NE (Z.rem (SpecFloat.cond_Zopp sx (Zpos mx) * 2 ^ (ex - e)) (Zpos my * 2 ^ (ey - e))) e sx
  | B754_zero _, B754_finite _ _ _ _ | B754_zero _, B754_infinity _ | B754_finite _ _ _ _, B754_infinity _ => x
  | _, _ => B754_nan
  end.
(** x % y of two floats, y not zero: float_rem of CPython's floatobject.c. *)
Definition fmodulo (x y : fl) : fl :=
  let m := frem x y in
  if feq m (fz 0) then B754_zero (Bsign y)
  else if xorb (flt y (fz 0)) (flt m (fz 0)) then fadd m y else m.

(** Angle.radians, degrees, gradians and turns, basic.py:1868-1882. An Angle is its number of radians. *)
Definition fradians (r : fl) : fl := r.
Definition fdegrees (d : fl) : fl := fdiv (fmul ftau d) (fz 360).
Definition fgradians (g : fl) : fl := fdiv (fmul ftau g) (fz 400).
Definition fturns (t : fl) : fl := fmul ftau t.
(** as_radians, as_degrees, as_gradians and as_turns, basic.py:1884-1890, 1899-1905. *)
Definition fas_radians (a : fl) : fl := a.
Definition fas_degrees (a : fl) : fl := fdiv (fmul a (fz 360)) ftau.
Definition fas_gradians (a : fl) : fl := fdiv (fmul a (fz 400)) ftau.
Definition fas_turns (a : fl) : fl := fdiv a ftau.
(** The loop of as_positive_degrees, basic.py:1892-1897, with [k] iterations allowed; None: it goes on. *)
Fixpoint fup360 (k : nat) (v : fl) : option fl :=
  if flt v (fz 0) then match k with O => None | S k' => fup360 k' (fadd v (fz 360)) end else Some v.
Definition fas_positive_degrees (k : nat) (a : fl) : option fl := fup360 k (fas_degrees a).
(** __eq__, basic.py:1841-1844, normalized, 1846-1847, and is_orthogonal, 1907-1908. *)
Definition fangle_eq (a b : fl) : bool := fle (fabs (fsub (fmodulo a ftau) (fmodulo b ftau))) f1e11.
Definition fnormalized (a : fl) : fl := fmodulo a ftau.
Definition fis_orthogonal (a : fl) : bool := feq (fmodulo a (fdiv ftau (fz 4))) (fz 0).
