(** Independent specification of a convex polygon enclosing a set of points. *)
Require Import QArith List.
Import ListNotations.
Open Scope Q_scope.

(** Twice the signed area of the triangle a b c; positive when c is left of the directed line a -> b. *)
Definition area2 (a b c : Q * Q) : Q :=
  (fst b - fst a) * (snd c - snd a) - (snd b - snd a) * (fst c - fst a).
Definition left_of (a b c : Q * Q) : Prop := 0 < area2 a b c.

Definition pdistinct (s : list (Q * Q)) : Prop :=
  NoDup s /\ forall a b, In a s -> In b s -> fst a == fst b -> snd a == snd b -> a = b.
(** No three different points on a line. *)
Definition general_position (s : list (Q * Q)) : Prop :=
  pdistinct s /\ forall a b c, In a s -> In b s -> In c s -> a <> b -> b <> c -> a <> c -> ~ area2 a b c == 0.

(** The sides of the closed polygon with the given vertices. *)
Definition sides (h : list (Q * Q)) : list ((Q * Q) * (Q * Q)) := combine h (tl h ++ firstn 1 h).
(** Every side has all other points strictly on its left: a counter-clockwise convex polygon with its
    vertices among [s] and enclosing [s]. *)
Definition convex_enclosing (h s : list (Q * Q)) : Prop :=
  incl h s /\ NoDup h /\ h <> [] /\
  forall a b, In (a, b) (sides h) -> forall t, In t s -> t = a \/ t = b \/ left_of a b t.
(** [t] is outside the polygon: strictly right of some side. *)
Definition outside (h : list (Q * Q)) (t : Q * Q) : Prop :=
  exists a b, In (a, b) (sides h) /\ area2 a b t < 0.
