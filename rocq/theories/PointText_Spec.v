(** What a printed coordinate must mean. *)
Require Import ZArith QArith Qabs Ascii String List Bool.
Require Import Verif.Text_Spec.
Import ListNotations.
Open Scope Z_scope.

(** [v] is [q] to [p] significant digits: the error is at most half a unit of the [p]-th digit of [q]. *)
Definition sig (p : Z) (v q : Q) : Prop := (Qabs (v - q) <= Qabs q * (1 # 2) * p10 (1 - p))%Q.
(** [q] can be written with [p] significant digits. *)
Definition short (p : Z) (q : Q) : Prop := exists k j, Z.abs k < 10 ^ p /\ (q == inject_Z k * p10 j)%Q.
(** Magnitudes printed without an exponent. *)
Definition plain (q : Q) : Prop := (q == 0)%Q \/ (p10 (-4) <= Qabs q <= p10 12 - 1)%Q.
(** Magnitudes printed with an exponent that does not end in a zero digit: one digit [d] before the point. *)
Definition scientific (d : Z) (q : Q) : Prop :=
  (p10 d <= Qabs q <= p10 (d + 1) - p10 (d - 11))%Q /\ (d < -4 \/ 12 <= d) /\ Z.abs d mod 10 <> 0.
(** What may stand between two numbers: white space, or a comma with white space around it. *)
Definition pair_sep (s : list ascii) : Prop :=
  (Forall wsp s /\ s <> []) \/ exists a b, Forall wsp a /\ Forall wsp b /\ s = a ++ ","%char :: b.
