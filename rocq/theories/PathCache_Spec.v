(** Specification of walking along a path by length. *)
Require Import Reals List.
Require Import Verif.Path_Model.
Import ListNotations.
Open Scope R_scope.

(** Length of some segments. *)
Fixpoint along (len : seg -> R) (p : path) : R := match p with [] => 0 | s :: r => len s + along len r end.
(** [s] is the segment of [p] reached after a way of [d], [x] the fraction of it that is covered then. *)
Definition reached (len : seg -> R) (p : path) (d : R) (s : seg) (x : R) : Prop :=
  exists a b, p = a ++ s :: b /\ along len a < d <= along len a + len s /\ x * len s = d - along len a.
(** As above, the end of a segment counted to the next one. *)
Definition reached_from (len : seg -> R) (p : path) (d : R) (s : seg) (x : R) : Prop :=
  exists a b, p = a ++ s :: b /\ along len a <= d < along len a + len s /\ x * len s = d - along len a.
