(** What multiplying by a transform should mean. *)
Require Import Reals List.
Require Import Verif.Base Verif.Point_Model Verif.Matrix_Model Verif.Matrix_Spec Verif.Transform_Spec Verif.MatOp_Model.
Import ListNotations.
Open Scope R_scope.

(** The map of the plane an operand stands for. *)
Inductive stands_for : obj -> (plane -> plane) -> Prop :=
| sf_matrix : forall a b c d e f, stands_for (OMat (M a b c d e f)) (fun p => (a * fst p + c * snd p + e, b * fst p + d * snd p + f))
| sf_text : forall t f, tlist t f -> stands_for (OText t) f.
(** Every point that is there has been moved. *)
Definition moved_pt (f : plane -> plane) (p q : option pt) : Prop :=
  match p, q with Some p, Some q => (px q, py q) = f (px p, py p) | None, None => True | _, _ => False end.
Definition moved (f : plane -> plane) (s s' : seg) : Prop := Forall2 (moved_pt f) s s'.
(** Not a cubic curve with one control point only. *)
Definition whole (s : seg) : Prop := forall a c d b, s = [a; c; d; b] -> (c = None <-> d = None).
