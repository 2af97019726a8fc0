(** Specification of closing directly. *)
Require Import QArith Qcanon List.
Require Import Verif.Path_Model.
Import ListNotations.

(** A close that has some way to go. *)
Definition long_close (s : seg) : Prop := s_kind s = KClose /\ exists a b, s_start s = Some a /\ s_end s = Some b /\ a <> b.
(** What stands for [s]: a long close is drawn by a line, and the close itself stays where it is. *)
Definition stands_for (s : seg) (l : path) : Prop :=
  (long_close s /\ exists ln z, l = [ln; z] /\
     s_kind ln = KLine /\ s_start ln = s_start s /\ s_end ln = s_end s /\
     s_kind z = KClose /\ s_start z = s_end s /\ s_end z = s_end s /\ s_rel z = s_rel s /\ s_smooth z = s_smooth s) \/
  (~ long_close s /\ l = [s]).
