(** What it means for a path to be connected. *)
Require Import QArith Qcanon Ascii String List Bool.
Require Import Verif.Text_Spec Verif.Path_Model Verif.PathText_Spec.
Import ListNotations.

(** The end of the last move in [p], or of the first segment if there is none. *)
Definition subpath_start (p : path) (o : option pt) : Prop :=
  (exists a m b, p = a ++ m :: b /\ s_kind m = KMove /\ Forall (fun s => s_kind s <> KMove) b /\ o = s_end m) \/
  (Forall (fun s => s_kind s <> KMove) p /\ match p with [] => o = None | f :: _ => o = s_end f end).
Definition end_of (p : path) (o : option pt) : Prop :=
  (p = [] /\ o = None) \/ exists a s, p = a ++ [s] /\ o = s_end s.
(** [s] may follow [p]: it starts where [p] ends, a close goes back to the start of the subpath, a move goes somewhere. *)
Definition fits0 (p : path) (s : seg) : Prop :=
  end_of p (s_start s) /\ (s_kind s = KClose -> subpath_start p (s_end s)).
(** Every segment fits the ones before it. *)
Definition connected (p : path) : Prop := forall a s b, p = a ++ s :: b -> a <> [] -> fits0 a s.
(** The drawing a segment stands for, if its points are known. *)
Definition view (s : seg) : option drawn :=
  match s_kind s, s_start s, s_end s with
  | KMove, o, Some b => Some (SMove o b)
  | KLine, Some a, Some b => Some (SLine a b)
  | KClose, Some a, Some b => Some (SClose a b)
  | KQuad (Some c), Some a, Some b => Some (SQuad a c b)
  | KCubic (Some c) (Some d), Some a, Some b => Some (SCubic a c d b)
  | KArc g, Some a, Some b => Some (SArc a (a_rx g) (a_ry g) (a_rot g) (a_large g) (a_sweep g) b)
  | _, _, _ => None
  end.
(** Every move goes somewhere. *)
Definition moves_ended (p : path) : Prop := Forall (fun s => is_move s = true -> s_end s <> None) p.
(** A character that is no part of path data. *)
Definition foreign (c : Ascii.ascii) : Prop :=
  ~ sepch c /\ ~ In c commands_letters /\ ~ In c (list_ascii_of_string "0123456789+-.eE").
(** Every instruction with its own letter, every number behind one space. *)
Definition tok_text (t : tok) : list ascii :=
  " "%char :: match t with TNum l => lit_text l | TFlag b => [if b then "1"%char else "0"%char] end.
Definition explicit1 (x : bool * atom lit) : list ascii := letter_of (fst x) (snd x) :: concat (map tok_text (args (snd x))).
Definition explicit (l : list (bool * atom lit)) : list ascii := concat (map explicit1 l).
