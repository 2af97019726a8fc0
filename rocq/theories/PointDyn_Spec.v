(** What an operand of point arithmetic stands for. *)
Require Import ZArith QArith Qabs List.
Require Import Verif.PointDyn_Model.
Import ListNotations.
Open Scope Q_scope.

(** The forms of a position the documentation of Point names (basic.py:1438-1447): a Point, a pair, a complex number, a real
    number. A longer tuple or list counts by its first two items. *)
Inductive stands_for : operand -> Q -> Q -> Prop :=
| by_point : forall x y, stands_for (OPoint x y) x y
| by_pair : forall x y rest, stands_for (OSeq (EN x :: EN y :: rest)) x y
| by_complex : forall x y, stands_for (OComplex x y) x y
| by_number : forall x, stands_for (ONum x) x 0.

(** Within the tolerance in both coordinates. *)
Definition close (x y u v : Q) : Prop := Qabs (x - u) <= 1 # 1000000000000 /\ Qabs (y - v) <= 1 # 1000000000000.
(** The same two numbers. *)
Definition same_pair (a b : Q * Q) : Prop := fst a == fst b /\ snd a == snd b.
