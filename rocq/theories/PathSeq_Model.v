(** Segments as sequences of points, comparing segments and paths, and Path as a Python list: svgio/path.py:401-414,
    457-468, 578-597, 629-658, 771-807, 956-998, 1401-1455, 2119-2136, 2690-2698, 2895-2910, 2940-2956, and the
    methods Path gets from collections.abc.MutableSequence. *)
Require Import ZArith QArith Qcanon Qabs List Bool.
Require Import Verif.Base Verif.Path_Model Verif.PathText_Model Verif.PathEdit_Model Verif.PathD_Model.
Import ListNotations.
Open Scope Z_scope.

(** What an Arc keeps besides its end points, path.py:1132-1245: center, prx, pry and sweep. How they come from the
    arguments is Arc_Model.v; here they are given by [solve]. *)
Record arcnum := mkArcNum { n_center : option pt; n_prx : option pt; n_pry : option pt; n_sweep : option Qc }.
Definition osame (a b : option Qc) : bool :=
  match a, b with Some x, Some y => if Qc_eq_dec x y then true else false | None, None => true | _, _ => false end.

Section Solved.
Variable solve : seg -> arcnum.

(** __len__ of the segment classes, path.py:588-589, 649-650, 798-799, 985-986, 1442-1443. *)
Definition seg_len (s : seg) : Z :=
  match s_kind s with KMove | KClose | KLine => 2 | KQuad _ => 3 | KCubic _ _ => 4 | KArc _ => 5 end.
(** __getitem__, path.py:591-597, 652-658, 801-807, 988-998, 1445-1455. *)
Definition seg_getitem (s : seg) (i : Z) : Res (option pt) :=
  match s_kind s with
  | KMove | KClose | KLine =>
      if i =? 0 then Ok (s_start s) else if i =? 1 then Ok (s_end s) else Err IndexError
  | KQuad c =>
      if i =? 0 then Ok (s_start s) else if i =? 1 then Ok c else if i =? 2 then Ok (s_end s) else Err IndexError
  | KCubic c d =>
      if i =? 0 then Ok (s_start s) else if i =? 1 then Ok c else if i =? 2 then Ok d
      else if i =? 3 then Ok (s_end s) else Err IndexError
  | KArc _ =>
      if i =? 0 then Ok (s_start s) else if i =? 1 then Ok (s_end s) else if i =? 2 then Ok (n_center (solve s))
      else if i =? 3 then Ok (n_prx (solve s)) else if i =? 4 then Ok (n_pry (solve s)) else Err IndexError
  end.
(** __next__, path.py:405-414; [n] is self.n before and after. [None]: StopIteration. *)
Definition seg_next (s : seg) (n : Z) : option (option pt) * Z :=
  match seg_getitem s (n + 1) with
  | Err _ => (None, n + 1)
  | Ok (Some p) => (Some (Some p), n + 1)
  | Ok None =>
      match seg_getitem s (n + 2) with
      | Err _ => (None, n + 2)
      | Ok v => (Some v, n + 2)
      end
  end.
(** Asking for the next point until there is none, and self.n then. Every call moves self.n on, so the fuel used
    below is enough. *)
Fixpoint drain (fuel : nat) (s : seg) (n : Z) : list (option pt) * Z :=
  match fuel with
  | O => ([], n)
  | S f =>
      match seg_next s n with
      | (None, m) => ([], m)
      | (Some v, m) => let '(l, k) := drain f s m in (v :: l, k)
      end
  end.
(** [p for p in segment]: __iter__ (path.py:401-403) sets self.n to -1 and returns the segment itself. *)
Definition seg_list (s : seg) : list (option pt) := fst (drain 6 s (-1)).
(** [(p, q) for p in segment for q in segment]: both loops use the one self.n. *)
Fixpoint nested_from (fuel : nat) (s : seg) (n : Z) : list (option pt * option pt) :=
  match fuel with
  | O => []
  | S f =>
      match seg_next s n with
      | (None, _) => []
      | (Some p, _) => let '(l, k) := drain 6 s (-1) in map (pair p) l ++ nested_from f s k
      end
  end.
Definition seg_nested (s : seg) : list (option pt * option pt) := nested_from 6 s (-1).

(** min and max of a list; the empty list is a ValueError. *)
Definition qcmin (a b : Qc) : Qc := if Qle_bool (this a) (this b) then a else b.
Definition qcmax (a b : Qc) : Qc := if Qle_bool (this a) (this b) then b else a.
Definition minimum (l : list Qc) : Res Qc := match l with [] => Err ValueError | x :: r => Ok (fold_left qcmin r x) end.
Definition maximum (l : list Qc) : Res Qc := match l with [] => Err ValueError | x :: r => Ok (fold_left qcmax r x) end.
(** Points that are not None. *)
Fixpoint somes {A} (l : list (option A)) : list A :=
  match l with [] => [] | Some x :: r => x :: somes r | None :: r => somes r end.
(** PathSegment.bbox, path.py:457-468, which moves, lines and closes use: xmin, ymin, xmax, ymax. *)
Definition seg_bbox (s : seg) : Res (Qc * Qc * Qc * Qc) :=
  let xs := map fst (somes (seg_list s)) in
  let ys := map snd (somes (seg_list s)) in
  do x0 <- minimum xs;
  do x1 <- maximum xs;
  do y0 <- minimum ys;
  do y1 <- maximum ys;
  Ok (x0, y0, x1, y1).
(** as_points, path.py:2690-2698. A None that the segment yields becomes a Point without coordinates, here None. *)
Definition as_points (p : path) : list (option pt) := concat (map seg_list p).

(** __eq__ of the segment classes, path.py:578-581, 629-632, 771-778, 956-964, 1401-1411; segments of different
    classes are equal only if they are the same object. *)
Definition seg_eq (s t : seg) : bool :=
  match s_kind s, s_kind t with
  | KMove, KMove | KClose, KClose | KLine, KLine => onear (s_start s) (s_start t) && onear (s_end s) (s_end t)
  | KQuad c, KQuad d => onear (s_start s) (s_start t) && onear (s_end s) (s_end t) && onear c d
  | KCubic c1 c2, KCubic d1 d2 =>
      onear (s_start s) (s_start t) && onear (s_end s) (s_end t) && onear c1 d1 && onear c2 d2
  | KArc _, KArc _ =>
      onear (s_start s) (s_start t) && onear (s_end s) (s_end t) && onear (n_prx (solve s)) (n_prx (solve t)) &&
      onear (n_pry (solve s)) (n_pry (solve t)) && onear (n_center (solve s)) (n_center (solve t)) &&
      osame (n_sweep (solve s)) (n_sweep (solve t))
  | _, _ => false
  end.
Fixpoint zip_eq (p q : list seg) : bool :=
  match p, q with s :: p', t :: q' => seg_eq s t && zip_eq p' q' | _, _ => true end.
(** Path.__eq__, path.py:2119-2131, with another Path (zip takes the other path first) and with text. *)
Definition path_eq (p q : path) : bool := if Nat.eqb (length p) (length q) then zip_eq q p else false.
Definition path_eq_text (p : path) (t : text) : Res bool := do q <- path_init (IText t); Ok (path_eq p q).
(** Subpath.__eq__, path.py:2895-2905. [len] and [other] are length and items of what it is compared with. *)
Definition sub_eq (p : path) (u : sub) (len : Z) (other : list seg) : bool :=
  if sub_len u =? len then zip_eq (sub_list p u) other else false.
Definition sub_eq_path (p : path) (u : sub) (q : path) : bool := sub_eq p u (Z.of_nat (length q)) q.
Definition sub_eq_sub (p : path) (u : sub) (q : path) (v : sub) : bool := sub_eq p u (sub_len v) (sub_list q v).
Definition sub_eq_text (p : path) (u : sub) (t : text) : Res bool := do q <- path_init (IText t); Ok (sub_eq_path p u q).

(** What Path inherits from collections.abc: __contains__, index (without bounds), count, pop, remove, clear. An item
    counts as the value if it is that object or ==; == of an object with itself is True. *)
Definition contains (p : path) (v : seg) : bool := existsb (fun s => seg_eq s v) p.
Fixpoint index_from (i : Z) (p : path) (v : seg) : Res Z :=
  match p with [] => Err ValueError | s :: p' => if seg_eq s v then Ok i else index_from (i + 1) p' v end.
Definition index (p : path) (v : seg) : Res Z := index_from 0 p v.
Definition count (p : path) (v : seg) : nat := length (filter (fun s => seg_eq s v) p).
Definition pop (p : path) (i : Z) : Res (seg * path) := do v <- pyget p i; do q <- delitem p i; Ok (v, q).
Definition remove (p : path) (v : seg) : Res path := do i <- index p v; delitem p i.
End Solved.
(** clear() pops until there is an IndexError. *)
Fixpoint clear_loop (fuel : nat) (p : path) : Res path :=
  match fuel with
  | O => Err Unmodelled
  | S f => match pop p (-1) with Ok (_, q) => clear_loop f q | Err IndexError => Ok p | Err e => Err e end
  end.
Definition clear (p : path) : Res path := clear_loop (S (length p)) p.

(** Subpath.d, path.py:2954-2956: its own smooth argument is not passed on. *)
Definition sub_d (p : path) (u : sub) (relative smooth : option bool) : Res text :=
  svg_d (sub_segments p u) relative None.
