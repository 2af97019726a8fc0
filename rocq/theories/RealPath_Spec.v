(** What is expected of paths with arcs on the reals. *)
Require Import Reals List.
Require Import Verif.Point_Model Verif.Curve_Model Verif.Curve_Spec Verif.Arc_Model Verif.Arc_Spec Verif.PathBox_Model Verif.RealPath_Model.
Import ListNotations.
Open Scope R_scope.

(** The library's equality of points: no coordinate differs by more than 1e-12. *)
Definition together (p q : pt) : Prop := Rabs (px p - px q) <= / 10 ^ 12 /\ Rabs (py p - py q) <= / 10 ^ 12.
Definition no_move (s : aseg) : Prop := forall o e, s <> ASeg (GMove o e).
(** Where the subpath being drawn began: at the end of the last move, or else of the first segment. *)
Inductive began : list aseg -> pt -> Prop :=
| began_move : forall a o e b, Forall no_move b -> began (a ++ ASeg (GMove o e) :: b) e
| began_first : forall s b, Forall no_move (s :: b) -> began (s :: b) (r_end s).
(** Every segment starts where the one before it ends, and a close returns to where its subpath began. *)
Definition connected (p : list aseg) : Prop :=
  (forall a f s b, p = a ++ f :: s :: b -> exists q, r_start s = Some q /\ together (r_end f) q) /\
  (forall a x y b, p = a ++ ASeg (GClose x y) :: b -> a <> [] -> exists z, began a z /\ together y z).
(** [x] is a point of what [p] draws: a move draws nothing. *)
Definition visits (np : bool) (p : list aseg) (x : pt) : Prop := exists s t, In s p /\ no_move s /\ 0 <= t <= 1 /\ x = r_point np s t.
(** Every point of what [p] draws is within [e] of one of what [q] draws. *)
Definition within (np : bool) (e : R) (p q : list aseg) : Prop := forall x, visits np p x -> exists y, visits np q y /\ dist x y <= e.
(** The arcs of a path: proper ones that sweep, with radii up to [r]. *)
Definition fair_arcs (r : R) (p : list aseg) : Prop :=
  forall A, In (AArc A) p -> (exists t0, proper_at A t0) /\ a_sweep A <> 0 /\ arx A <= r /\ ary A <= r.
(** How far the curves may be from the arc, relative to its radii, where a piece takes at most the fraction [f] of a turn. *)
Definition cubic_gap (f : R) : R := let s := sin (PI * f) in s ^ 6 / (4 * (4 - 3 * s ^ 2) ^ 2).
Definition quad_gap (f : R) : R := let c := cos (PI * f) in (2 * c - 1) * (1 - c) / 6.
(** What takes the place of a segment: curves of the wanted sort from the start to the end of an arc, anything else itself. *)
Definition is_cubic (g : gseg) : Prop := exists a c d b, g = GCubic a c d b.
Definition is_quad (g : gseg) : Prop := exists a c b, g = GQuad a c b.
Definition replaced (sort : gseg -> Prop) (s : aseg) (l : list aseg) : Prop :=
  match s with
  | AArc A => exists gs, l = map ASeg gs /\ gs <> [] /\ Forall sort gs /\ chain (a_start A) gs (a_end A)
  | _ => l = [s]
  end.
Definition no_arc (s : aseg) : Prop := forall A, s <> AArc A.
