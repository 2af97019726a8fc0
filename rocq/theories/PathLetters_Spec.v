(** The command letters of path data. *)
Require Import Ascii List Bool.
Require Import Verif.Path_Model Verif.PathText_Spec.
Import ListNotations.

(** The commands a text contains, in order. *)
Definition commands_of (s : list ascii) : list ascii := filter (fun c => if in_dec ascii_dec c commands_letters then true else false) s.
(** The commands that may stand for a segment: relative or not, short forms for curves allowed or not. *)
Definition stands_for (relative short : bool) (s : seg) (c : ascii) : Prop :=
  match s_kind s with
  | KMove => c = (if relative then "m" else "M")%char
  | KClose => c = (if relative then "z" else "Z")%char
  | KLine => c = (if relative then "l" else "L")%char
  | KQuad _ => c = (if relative then "q" else "Q")%char \/ short = true /\ c = (if relative then "t" else "T")%char
  | KCubic _ _ => c = (if relative then "c" else "C")%char \/ short = true /\ c = (if relative then "s" else "S")%char
  | KArc _ => c = (if relative then "a" else "A")%char
  end.
(** What is asked for, or else what the segment is marked with. *)
Definition wanted (o : option bool) (mark : bool) : bool := match o with Some b => b | None => mark end.
