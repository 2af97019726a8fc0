(** Colours as CSS has them, on the real numbers. *)
Require Import ZArith Reals.
From Flocq Require Import Core BinarySingleNaN.
Require Import Verif.Float_Model Verif.Float_Spec.
Open Scope R_scope.

(** CSS Color 4, section 7.1 (hslToRgb): [c] is channel n, between 0 and 1, of hue h in turns, saturation s and lightness
    l: l - a max(-1, min(k-3, 9-k, 1)), k = (n + 12 h) mod 12, a = s min(l, 1-l). n is 0 for red, 8 for green, 4 for blue. *)
Definition css_channel (n h s l c : R) : Prop :=
  exists (k : R) (z : Z), 0 <= k < 12 /\ n + 12 * h = k + 12 * IZR z /\ c = l - s * Rmin l (1 - l) * Rmax (-1) (Rmin (Rmin (k - 3) (9 - k)) 1).
(** The byte [n] of a number of 0 to 255: decimals are dropped. *)
Definition cut (r : R) (n : Z) : Prop := (r <= 0 -> n = 0%Z) /\ (255 <= r -> n = 255%Z) /\ (0 <= r <= 255 -> IZR n <= r < IZR n + 1).
(** x between 0 and 1, whatever p percent are. *)
Definition unit_part (p x : R) : Prop := (p <= 0 -> x = 0) /\ (100 <= p -> x = 1) /\ (0 <= p <= 100 -> x = p / 100).
(** Hues in turns that are the same, but for e. *)
Definition same_hue (a b e : R) : Prop := exists k : Z, Rabs (a - b - IZR k) <= e.
(** The colours with the bytes r, g and b. *)
Definition hsl_of (r g b : Z) (h s l : R) : Prop :=
  0 <= s <= 1 /\ 0 <= l <= 1 /\ css_channel 0 h s l (IZR r / 255) /\ css_channel 8 h s l (IZR g / 255) /\ css_channel 4 h s l (IZR b / 255).
