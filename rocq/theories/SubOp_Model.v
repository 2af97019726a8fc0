(** The operators of Subpath and of single segments: svgio/path.py:376-385, 2805-2806, 2818-2863.
    As in PathEdit_Model.v the segment objects are taken to be distinct. Path(subpath) and Path(segment, segment) hold the
    very segments they are given, so what they do to them is also seen in the path they came from:
    see Alias_Model.v. *)
Require Import ZArith List Bool.
Require Import Verif.Base Verif.Path_Model Verif.PathText_Model Verif.PathEdit_Model.
Import ListNotations.
Local Open Scope Z_scope.

(** Subpath.__copy__, path.py:2805-2806: Path(self._path) is Path.__init__ with a Path. *)
Definition sub_copy (p : path) (u : sub) : Res (path * sub) := do q <- path_init (IPath p); Ok (q, u).
(** Subpath.__iadd__, path.py:2818-2829: the backing path afterwards. NotImplemented for a Subpath, which does not
    define __radd__ for one either, is a TypeError. *)
Definition sub_iadd_any (p : path) (u : sub) (a : addend) : Res path :=
  match a with
  | ATextual t => do q <- path_init (IText t); Ok (setslice p (Some (u_end u)) (Some (u_end u)) q)
  | APath q => do r <- path_copy q; Ok (setslice p (Some (u_end u)) (Some (u_end u)) r)
  | ASeg v => sub_iadd p u v
  | ASub _ _ => Err TypeError
  end.
(** Subpath.__add__, path.py:2831-2836: a new backing path and the window on it. *)
Definition sub_add (p : path) (u : sub) (a : addend) : Res (path * sub) :=
  match a with
  | ASub _ _ => Err TypeError
  | _ => do n <- sub_copy p u; do q <- sub_iadd_any (fst n) (snd n) a; Ok (q, snd n)
  end.
(** Subpath.__radd__, path.py:2838-2848: text + subpath, segment + subpath. *)
Definition sub_radd_text (t : text) (p : path) (u : sub) : Res path :=
  do q <- path_init (IText t); Ok (extend q (map seg_copy p)).
Definition sub_radd_seg (v : seg) (p : path) (u : sub) : Res path :=
  do q <- path_init (ISub p u); insert q 0 v.
(** Subpath.__imul__, path.py:2850-2856, with a Matrix; [f] is what segment *= matrix does to a segment. The segments
    are those iteration yields, path.py:2867-2884, from u_start to u_end or the end of the path. Simplified: a negative
    u_start, which as_subpaths never makes, would read from the end of the path. *)
Fixpoint map_range (f : seg -> seg) (k : Z) (lo hi : Z) (p : path) : path :=
  match p with
  | [] => []
  | s :: r => (if (lo <=? k) && (k <=? hi) then f s else s) :: map_range f (k + 1) lo hi r
  end.
Definition sub_imul (f : seg -> seg) (p : path) (u : sub) : path := map_range f 0 (u_start u) (u_end u) p.
(** Subpath.__mul__, path.py:2858-2863. *)
Definition sub_mul (f : seg -> seg) (p : path) (u : sub) : Res (path * sub) :=
  do n <- sub_copy p u; Ok (sub_imul f (fst n) (snd n), snd n).
(** PathSegment.__add__ and __iadd__, path.py:376-385, of a segment and of text. *)
Definition seg_add (s v : seg) : Res path := path_init (ISegs [s; v]).
Definition seg_add_text (s : seg) (t : text) : Res path := do q <- path_init (ISegs [s]); path_add q (ATextual t).
