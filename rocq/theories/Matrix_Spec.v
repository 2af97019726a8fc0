(** Independent specification: maps of the plane, as functions on coordinate pairs. *)
Require Import Reals.
Open Scope R_scope.

Definition plane := (R * R)%type.
Definition sp_translate (tx ty : R) (p : plane) : plane := (fst p + tx, snd p + ty).
Definition sp_scale (sx sy : R) (p : plane) : plane := (sx * fst p, sy * snd p).
(** Turning by the angle [a]: polar coordinates (r, t) go to (r, t + a). *)
Definition sp_rotate (a : R) (p : plane) : plane :=
  (fst p * cos a - snd p * sin a, fst p * sin a + snd p * cos a).
Definition sp_skew (a b : R) (p : plane) : plane := (fst p + snd p * tan a, snd p + fst p * tan b).
(** Performing [f] with (x, y) as the origin. *)
Definition sp_about (x y : R) (f : plane -> plane) (p : plane) : plane :=
  let q := f (fst p - x, snd p - y) in (fst q + x, snd q + y).

Definition sp_dist (p q : plane) : R := sqrt ((fst p - fst q) ^ 2 + (snd p - snd q) ^ 2).
(** Oriented area of the triangle p q r. *)
Definition sp_area (p q r : plane) : R :=
  ((fst q - fst p) * (snd r - snd p) - (snd q - snd p) * (fst r - fst p)) / 2.
