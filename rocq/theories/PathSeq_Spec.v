(** Specifications for segments as sequences, equality and the list methods of a path. *)
Require Import ZArith QArith Qcanon Qabs List.
Require Import Verif.Path_Model Verif.PathSeq_Model Verif.PathEdit_Spec.
Import ListNotations.

(** The sort of a segment. *)
Inductive sort_ := SortMove | SortClose | SortLine | SortQuad | SortCubic | SortArc.
Definition sort_of (s : seg) : sort_ :=
  match s_kind s with
  | KMove => SortMove | KClose => SortClose | KLine => SortLine | KQuad _ => SortQuad | KCubic _ _ => SortCubic | KArc _ => SortArc
  end.
(** The points that define a segment, in order, some perhaps missing. *)
Definition points (solve : seg -> arcnum) (s : seg) : list (option pt) :=
  match s_kind s with
  | KQuad c => [s_start s; c; s_end s]
  | KCubic c d => [s_start s; c; d; s_end s]
  | KArc _ => [s_start s; s_end s; n_center (solve s); n_prx (solve s); n_pry (solve s)]
  | _ => [s_start s; s_end s]
  end.
(** The points that are there. *)
Definition present (l : list (option pt)) : list pt := flat_map (fun o => match o with Some p => [p] | None => [] end) l.
(** No two points in a row are missing. *)
Definition no_gap (l : list (option pt)) : Prop := forall a b, l <> a ++ None :: None :: b.
(** Both missing, or both there and within 1e-12. *)
Definition alike_point (a b : option pt) : Prop := (a = None /\ b = None) \/ meets a b.
(** The same sort of segment through the same points; arcs also turn by the same angle. *)
Definition same_segment (solve : seg -> arcnum) (s t : seg) : Prop :=
  sort_of s = sort_of t /\ Forall2 alike_point (points solve s) (points solve t) /\
  (sort_of s = SortArc -> n_sweep (solve s) = n_sweep (solve t)).
Definition same_path (solve : seg -> arcnum) (p q : path) : Prop := Forall2 (same_segment solve) p q.
(** [k] is the position of the first item for which [P] holds. *)
Definition first_at {A} (P : A -> Prop) (l : list A) (k : nat) : Prop :=
  exists a x b, l = a ++ x :: b /\ length a = k /\ P x /\ Forall (fun y => ~ P y) a.
(** A box around points that cannot be made smaller. *)
Definition tight_box (l : list pt) (x0 y0 x1 y1 : Qc) : Prop :=
  (forall p, In p l -> (x0 <= fst p <= x1)%Qc /\ (y0 <= snd p <= y1)%Qc) /\
  (exists p, In p l /\ fst p = x0) /\ (exists p, In p l /\ fst p = x1) /\
  (exists p, In p l /\ snd p = y0) /\ (exists p, In p l /\ snd p = y1).
