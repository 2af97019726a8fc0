(** Convex polygons around floating point places. *)
Require Import Reals List.
From Flocq Require Import Core BinarySingleNaN.
Require Import Verif.Point_Model Verif.Float_Model Verif.Float_Spec.
Import ListNotations.
Open Scope R_scope.

(** Twice the signed area of the triangle a b c, exactly: positive when c is left of the way from a to b. *)
Definition farea (a b c : fpt) : R :=
  (px (place b) - px (place a)) * (py (place c) - py (place a)) - (py (place b) - py (place a)) * (px (place c) - px (place a)).
(** What is left by set(): no place twice. *)
Definition no_repeats (s : list fpt) : Prop := NoDup (map place s).
(** Any three different points span a triangle of more than e. *)
Definition spread (e : R) (s : list fpt) : Prop :=
  forall a b c, In a s -> In b s -> In c s -> place a <> place b -> place b <> place c -> place a <> place c -> e < Rabs (farea a b c).
(** A polygon with vertices of s whose sides all have the other points strictly on their left. *)
Definition encloses (h s : list fpt) : Prop :=
  incl h s /\ no_repeats h /\ h <> [] /\
  forall a b, In (a, b) (combine h (tl h ++ firstn 1 h)) -> forall t, In t s -> t = a \/ t = b \/ 0 < farea a b t.
