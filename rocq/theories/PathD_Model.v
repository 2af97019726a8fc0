(** Printing path data: the d methods of the segments, Path.svg_d, Path.d and str of a segment,
    svgio/path.py:387-400, 599-607, 716-727, 736-746, 897-927, 1095-1129, 2113, 2700-2758.
    Arcs are printed from their centre parameters and not modelled here; a segment without an end point
    (printed as None) is not modelled either. *)
Require Import ZArith QArith Qcanon Qabs Ascii String List Bool.
Require Import Verif.Base Verif.Path_Model Verif.FmtG_Model.
Import ListNotations.
Open Scope Z_scope.

(** "%s" % point, basic.py:1524-1535. *)
Definition pstr (p : pt) : text := point_str (this (fst p)) (this (snd p)).
(** The points printed: as they are, or less the current point. path.py:600-607 and alike: absolute without
    a current point or when [rel] is false. *)
Definition absolute_d (cur : option pt) (rel : bool) : bool := match cur with None => true | Some _ => negb rel end.
Definition ptxt (cur : option pt) (rel : bool) (p : pt) : text :=
  match cur with Some c => if rel then pstr (psub p c) else pstr p | None => pstr p end.
Definition cmd (up lo : ascii) (cur : option pt) (rel : bool) : ascii := if absolute_d cur rel then up else lo.
Fixpoint words (l : list text) : text := match l with [] => [] | [w] => w | w :: l' => w ++ " "%char :: words l' end.
(** segment.d(current_point, relative=rel, smooth=smooth) with rel and smooth given. *)
Definition seg_d (s : seg) (cur : option pt) (rel smooth : bool) : Res text :=
  let P := ptxt cur rel in
  match s_kind s, s_end s with
  | KMove, Some e => Ok (words [[cmd "M" "m" cur rel]; P e])
  | KClose, _ => Ok [cmd "Z" "z" cur rel]
  | KLine, Some e => Ok (words [[cmd "L" "l" cur rel]; P e])
  | KQuad (Some c), Some e =>
      Ok (if smooth then words [[cmd "T" "t" cur rel]; P e] else words [[cmd "Q" "q" cur rel]; P c; P e])
  | KCubic (Some c) (Some d), Some e =>
      Ok (if smooth then words [[cmd "S" "s" cur rel]; P d; P e] else words [[cmd "C" "c" cur rel]; P c; P d; P e])
  | _, _ => Err Unmodelled
  end.
(** is_smooth_from, path.py:897-904, 1095-1102: after a curve of its own class the control must mirror the
    last one, after anything else it must be the start. Comparing with None is False; None - point is not modelled. *)
Definition continues (c : option pt) (s : seg) (prev : option pt) (prev_end : option pt) : Res bool :=
  match c, s_start s, prev, prev_end with
  | Some c, Some b, Some k, Some e => Ok (near b e && near (psub c b) (psub e k))
  | _, _, _, _ => Err Unmodelled
  end.
Definition is_smooth_from (s : seg) (prev : option seg) : Res bool :=
  match s_kind s with
  | KQuad c =>
      match prev with
      | Some q => match s_kind q with KQuad k => continues c s k (s_end q) | _ => Ok (onear c (s_start s)) end
      | None => Ok (onear c (s_start s))
      end
  | KCubic c _ =>
      match prev with
      | Some q => match s_kind q with KCubic _ k => continues c s k (s_end q) | _ => Ok (onear c (s_start s)) end
      | None => Ok (onear c (s_start s))
      end
  | _ => Ok false
  end.
(** svg_d, path.py:2700-2752. The test of smoothness is made only for curves that may be printed smooth. *)
Fixpoint svg_d_from (prev : option seg) (cur : option pt) (relative smooth : option bool) (p : path) : Res (list text) :=
  match p with
  | [] => Ok []
  | s :: p' =>
      let rel := match relative with Some r => r | None => s_rel s end in
      do sm <- (if match smooth with Some b => b | None => s_smooth s end then is_smooth_from s prev else Ok false);
      do w <- seg_d s cur rel sm;
      do ws <- svg_d_from (Some s) (s_end s) relative smooth p';
      Ok (w :: ws)
  end.
Definition svg_d (p : path) (relative smooth : option bool) : Res text :=
  rmap words (svg_d_from None (Some (0, 0)%Qc) relative smooth p).
(** Path.d, path.py:2754-2758: abs() of a Path is a TypeError (the class has no __abs__). *)
Definition path_d (p : path) (relative : option bool) (transformed : bool) (smooth : option bool) : Res text :=
  if transformed then Err TypeError else svg_d p relative smooth.
(** Path.__str__, path.py:2113-2114. *)
Definition path_str (p : path) : Res text := path_d p None true None.
(** PathSegment.__str__, path.py:387-400: d() without a current point is absolute, and smooth by the segment's own flag. *)
Definition seg_str (s : seg) : Res text :=
  do w <- seg_d s None false (s_smooth s);
  Ok (match s_start s with Some b => words [[if s_rel s then "m"%char else "M"%char]; pstr b; w] | None => w end).
