(** What must survive when coordinates have more digits than are printed. *)
Require Import ZArith QArith Qcanon Qabs Ascii String List Bool.
Require Import Verif.Text_Spec Verif.PointText_Spec Verif.Path_Model Verif.PathText_Spec.
Import ListNotations.
Open Scope Z_scope.

(** The magnitudes that C26 proves to be printed legibly. *)
Definition legible (x : Qc) : Prop := plain (this x) \/ exists d, scientific d (this x).
(** The point a segment is drawn from, the origin if there is none yet. *)
Definition drawn_from (d : drawn) : point :=
  match d with SMove None _ => (0, 0)%Qc | SMove (Some f) _ => f | SLine f _ | SClose f _ | SQuad f _ _ | SCubic f _ _ _ | SArc f _ _ _ _ _ _ => f end.
(** The points that have to be written down for a segment, and the numbers: counted from where the segment
    starts if [rel]. *)
Definition written (d : drawn) : list point :=
  match d with SMove _ t | SLine _ t => [t] | SClose _ _ => [] | SQuad _ c t => [c; t] | SCubic _ c e t => [c; e; t] | SArc _ _ _ _ _ _ t => [t] end.
Definition numbers (rel : bool) (d : drawn) : list Qc :=
  flat_map (fun p : point => let f := drawn_from d in if rel then [fst p - fst f; snd p - snd f]%Qc else [fst p; snd p]) (written d).
(** Two drawings of the same sort whose points correspond by [R]. *)
Definition opt_by (R : point -> point -> Prop) (a b : option point) : Prop :=
  match a, b with Some a, Some b => R a b | None, None => True | _, _ => False end.
Definition drawn_by (R : point -> point -> Prop) (d' d : drawn) : Prop :=
  match d', d with
  | SMove f t, SMove f' t' => opt_by R f f' /\ R t t'
  | SLine f t, SLine f' t' | SClose f t, SClose f' t' => R f f' /\ R t t'
  | SQuad f c t, SQuad f' c' t' => R f f' /\ R c c' /\ R t t'
  | SCubic f c e t, SCubic f' c' e' t' => R f f' /\ R c c' /\ R e e' /\ R t t'
  | _, _ => False
  end.
(** Both coordinates right to 12 significant digits. *)
Definition digits12 (p' p : point) : Prop := sig 12 (this (fst p')) (this (fst p)) /\ sig 12 (this (snd p')) (this (snd p)).
(** Both coordinates at most [e] away. *)
Definition off (e : Q) (p' p : point) : Prop :=
  (Qabs (this (fst p') - this (fst p)) <= e)%Q /\ (Qabs (this (snd p') - this (snd p)) <= e)%Q.
(** A legible number of size at most [B], and [n] times half a unit of the twelfth digit of such numbers. *)
Definition size_at_most (B : Q) (x : Qc) : Prop := legible x /\ (Qabs (this x) <= B)%Q.
Definition drift (B : Q) (n : nat) : Q := (inject_Z (Z.of_nat n) * (B * (1 # 2) * p10 (-11)))%Q.
(** Whether the smooth form of a curve is asked for, which segments are curves, whether a segment is to be
    printed relative: the argument decides, or else the segment's flag. *)
Definition wants (smooth : option bool) (s : seg) : bool := match smooth with Some b => b | None => s_smooth s end.
Definition curved (s : seg) : Prop := match s_kind s with KQuad _ | KCubic _ _ => True | _ => False end.
Definition rel_of (relative : option bool) (s : seg) : bool := match relative with Some r => r | None => s_rel s end.
