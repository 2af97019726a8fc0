(** Angle of svgio/basic.py:1832-1908 on the reals. *)
Require Import ZArith QArith Qreals Reals Ascii String List Bool.
Require Import Verif.Base.
Import ListNotations.
Open Scope R_scope.

(** math.tau *)
Definition tau : R := 2 * PI.
(** x % m for floats, m > 0: the representative in [0, m). *)
Definition rmod (x m : R) : R := x - m * IZR (Int_part (x / m)).

(** Angle.radians, degrees, gradians, turns, basic.py:1868-1882. An Angle is the number of radians. *)
Definition radians (r : R) : R := r.
Definition degrees (d : R) : R := tau * d / 360.
Definition gradians (g : R) : R := tau * g / 400.
Definition turns (t : R) : R := tau * t.
(** as_radians, as_degrees, as_gradians, as_turns, basic.py:1884-1905. *)
Definition as_radians (a : R) : R := a.
Definition as_degrees (a : R) : R := a * 360 / tau.
Definition as_gradians (a : R) : R := a * 400 / tau.
Definition as_turns (a : R) : R := a / tau.

(** The loop of as_positive_degrees, basic.py:1892-1897, with [k] iterations allowed. *)
Fixpoint up360 (k : nat) (v : R) : option R :=
  if Rlt_dec v 0 then match k with O => None | S k' => up360 k' (v + 360) end else Some v.
Definition as_positive_degrees (k : nat) (a : R) : option R := up360 k (as_degrees a).

(** __eq__, basic.py:1841-1844 (1e-11 as an exact number), and normalized, 1846-1847. *)
Definition angle_eq (a b : R) : Prop := Rabs (rmod a tau - rmod b tau) <= / 10 ^ 11.
Definition normalized (a : R) : R := rmod a tau.
(** is_orthogonal, basic.py:1907-1908. *)
Definition is_orthogonal (a : R) : Prop := rmod a (tau / 4) = 0.

(** s.endswith(suf): the text before the suffix. *)
Definition strip_suffix (suf s : text) : option text :=
  let n := (List.length s - List.length suf)%nat in
  if teqb (skipn n s) suf then Some (firstn n s) else None.

(** Angle.parse, basic.py:1849-1866. *)
Definition angle_parse (s : text) : Res R :=
  let s := lower s in
  match strip_suffix (T "deg") s with
  | Some p => rmap (fun q => degrees (Q2R q)) (py_float p)
  | None =>
  match strip_suffix (T "grad") s with
  | Some p => rmap (fun q => gradians (Q2R q)) (py_float p)
  | None =>
  match strip_suffix (T "rad") s with
  | Some p => rmap (fun q => radians (Q2R q)) (py_float p)
  | None =>
  match strip_suffix (T "turn") s with
  | Some p => rmap (fun q => turns (Q2R q)) (py_float p)
  | None =>
  match strip_suffix (T "%") s with
  | Some p => rmap (fun q => turns (Q2R q / 100)) (py_float p)
  | None => rmap (fun q => degrees (Q2R q)) (py_float s)
  end end end end end.
