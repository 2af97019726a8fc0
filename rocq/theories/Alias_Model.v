(** Paths, segments and points as objects: svgio/path.py:334-1010, 1948-2130, 2244-2370, 2441-2672, 2793-3001.
    PathEdit_Model.v treats a path as a list of values. Here a Path holds references to segment objects and a segment
    holds references to point objects, so one object can be held twice, by one path or by two. Objects are never freed.
    Simplified: the center and the axis points of an Arc are not kept (arcs carry their SVG arguments as in
    Path_Model.v), and multiplying an Arc by a matrix is Unmodelled. What is left after an exception is not modelled. *)
Require Import ZArith QArith Qcanon List Bool Ascii.
Require Import Verif.Base Verif.Path_Model Verif.PathText_Model Verif.PathEdit_Model.
Import ListNotations.
Local Open Scope Z_scope.

(** The attributes of a segment object: numbers are references to points. path.py:355-366, 748-752, 930-936. *)
Inductive okind :=
| OMove | OClose | OLine
| OQuad (c : option nat)
| OCubic (c1 c2 : option nat)
| OArc (a : arcargs).
Record oseg := mkO { o_kind : okind; o_start : option nat; o_end : option nat; o_rel : bool; o_smooth : bool }.
(** The objects made so far; a reference is a position in the list of its sort. *)
Record heap := mkH { h_pts : list pt; h_segs : list oseg }.

Definition getp (h : heap) (p : nat) : pt := nth p (h_pts h) (0%Qc, 0%Qc).
Definition gets (h : heap) (s : nat) : oseg := nth s (h_segs h) (mkO OMove None None false true).
(** The value of an attribute that is a Point or None. *)
Definition val (h : heap) (o : option nat) : option pt := option_map (getp h) o.
Definition kind_val (h : heap) (k : okind) : kind :=
  match k with
  | OMove => KMove | OClose => KClose | OLine => KLine
  | OQuad c => KQuad (val h c)
  | OCubic a b => KCubic (val h a) (val h b)
  | OArc a => KArc a
  end.
(** The value of a segment object and of a path. *)
Definition read (h : heap) (s : nat) : seg :=
  let o := gets h s in mkSeg (kind_val h (o_kind o)) (val h (o_start o)) (val h (o_end o)) (o_rel o) (o_smooth o).
Definition reads (h : heap) (l : list nat) : path := map (read h) l.

(** Point(x), basic.py:1450-1477, of a point that is not None; None stays None. A new object each time. *)
Definition new_point (h : heap) (v : option pt) : option nat * heap :=
  match v with
  | None => (None, h)
  | Some q => (Some (length (h_pts h)), mkH (h_pts h ++ [q]) (h_segs h))
  end.
Definition put (h : heap) (s : nat) (o : oseg) : heap := mkH (h_pts h) (upd (h_segs h) s o).
(** segment.start = Point(...), segment.end = Point(...) *)
Definition assign_start (h : heap) (s : nat) (v : option pt) : heap :=
  let '(p, h1) := new_point h v in
  let o := gets h1 s in put h1 s (mkO (o_kind o) p (o_end o) (o_rel o) (o_smooth o)).
Definition assign_end (h : heap) (s : nat) (v : option pt) : heap :=
  let '(p, h1) := new_point h v in
  let o := gets h1 s in put h1 s (mkO (o_kind o) (o_start o) p (o_rel o) (o_smooth o)).
(** segment.start = segment.end: the same object, no Point(...) around it. Path.reverse, path.py:2662-2663, 2671. *)
Definition share_start (h : heap) (s : nat) (p : option nat) : heap :=
  let o := gets h s in put h s (mkO (o_kind o) p (o_end o) (o_rel o) (o_smooth o)).

(** The constructors of the segments, path.py:519-560, 604-617, 748-752, 930-936: every point is made anew. *)
Definition new_kind (h : heap) (k : kind) : okind * heap :=
  match k with
  | KMove => (OMove, h) | KClose => (OClose, h) | KLine => (OLine, h)
  | KQuad c => let '(p, h1) := new_point h c in (OQuad p, h1)
  | KCubic a b => let '(p, h1) := new_point h a in let '(q, h2) := new_point h1 b in (OCubic p q, h2)
  | KArc a => (OArc a, h)
  end.
Definition construct (h : heap) (v : seg) : nat * heap :=
  let '(a, h1) := new_point h (s_start v) in
  let '(b, h2) := new_point h1 (s_end v) in
  let '(k, h3) := new_kind h2 (s_kind v) in
  (length (h_segs h3), mkH (h_pts h3) (h_segs h3 ++ [mkO k a b (s_rel v) (s_smooth v)])).
Fixpoint construct_all (h : heap) (vs : list seg) : list nat * heap :=
  match vs with
  | [] => ([], h)
  | v :: r => let '(s, h1) := construct h v in let '(l, h2) := construct_all h1 r in (s :: l, h2)
  end.
(** map(copy, segments): path.py:575, 626, 762, 946, 1390. *)
Definition copy_all (h : heap) (l : list nat) : list nat * heap := construct_all h (map seg_copy (reads h l)).

(** segment.reverse(), path.py:469-475, 1000-1004, 1464-1466: the references change places. *)
Definition okind_reverse (k : okind) : okind :=
  match k with
  | OCubic a b => OCubic b a
  | OArc g => OArc (mkArc (a_rx g) (a_ry g) (a_rot g) (a_large g) (negb (a_sweep g)))
  | _ => k
  end.
Definition h_reverse (h : heap) (s : nat) : heap :=
  let o := gets h s in put h s (mkO (okind_reverse (o_kind o)) (o_end o) (o_start o) (o_rel o) (o_smooth o)).

(** The points of a segment in the order __imul__ visits them, path.py:563-571, 639-647, 785-796, 971-984. *)
Definition okind_pts (k : okind) : list nat :=
  let l (o : option nat) := match o with Some p => [p] | None => [] end in
  match k with OQuad c => l c | OCubic a b => l a ++ l b | _ => [] end.
Definition opts (o : oseg) : list nat :=
  let l (o : option nat) := match o with Some p => [p] | None => [] end in
  l (o_start o) ++ okind_pts (o_kind o) ++ l (o_end o).
Definition is_oarc (o : oseg) : bool := match o_kind o with OArc _ => true | _ => false end.
(** segment *= matrix: each Point.__imul__, basic.py:1537-1549, changes the coordinates of the object itself; [m] is
    the matrix as a map of points. *)
Definition h_imul (m : pt -> pt) (h : heap) (s : nat) : Res heap :=
  let o := gets h s in
  if is_oarc o then Err Unmodelled
  else Ok (mkH (fold_left (fun ps p => upd ps p (m (nth p ps (0%Qc, 0%Qc)))) (opts o) (h_pts h)) (h_segs h)).

(** The body of _validate_connection, path.py:2292-2304. *)
Definition h_link (prefer_second : bool) (h : heap) (f s : nat) : heap :=
  match val h (o_end (gets h f)), val h (o_start (gets h s)) with
  | Some e, None => assign_start h s (Some e)
  | None, Some b => assign_end h f (Some b)
  | Some e, Some b => if near e b then h
                      else if prefer_second then assign_end h f (Some b) else assign_start h s (Some e)
  | None, None => h
  end.
(** _validate_connection, path.py:2283-2304. *)
Definition h_connection (prefer_second : bool) (h : heap) (l : list nat) (i : Z) : heap :=
  if (i <? 0) || (Z.of_nat (length l) <=? i + 1) then h
  else match nth_error l (Z.to_nat i), nth_error l (S (Z.to_nat i)) with
       | Some f, Some s => h_link prefer_second h f s
       | _, _ => h
       end.
Definition o_is_move (h : heap) (s : nat) : bool := match o_kind (gets h s) with OMove => true | _ => false end.
Definition o_is_close (h : heap) (s : nat) : bool := match o_kind (gets h s) with OClose => true | _ => false end.
(** The last Move of a list of segments, path.py:2253-2256, 2273-2276. *)
Fixpoint h_last_move (h : heap) (l : list nat) : option nat :=
  match l with
  | [] => None
  | s :: r => match h_last_move h r with Some m => Some m | None => if o_is_move h s then Some s else None end
  end.
(** The point a Close at position [i] returns to. *)
Definition h_close_to (h : heap) (l : list nat) (i : nat) : option pt :=
  match h_last_move h (firstn (S i) l) with
  | Some m => val h (o_end (gets h m))
  | None => match l with f :: _ => val h (o_end (gets h f)) | [] => None end
  end.
(** _validate_close, path.py:2271-2281; simplified as validate_closeZ is. *)
Definition h_close (h : heap) (l : list nat) (i : Z) : Res heap :=
  if i <? 0 then
    do z <- pyget l i; Ok (assign_end h z (match l with f :: _ => val h (o_end (gets h f)) | [] => None end))
  else if i <? Z.of_nat (length l) then
    do z <- pyget l i; Ok (assign_end h z (h_close_to h l (Z.to_nat i)))
  else Err IndexError.
(** The first Move or Close at or after position [n]. *)
Fixpoint h_next_break (h : heap) (l : list nat) (n : nat) : option nat :=
  match l with
  | [] => None
  | s :: r => match n with
              | O => if o_is_move h s || o_is_close h s then Some s else h_next_break h r O
              | S n' => h_next_break h r n'
              end
  end.
(** _validate_subpath, path.py:2244-2259. *)
Definition h_subpath (h : heap) (l : list nat) (i : Z) : heap :=
  if (i <? 0) || (Z.of_nat (length l) <=? i + 1) then h
  else match h_next_break h l (Z.to_nat i) with
       | None => h
       | Some z => if o_is_move h z then h else assign_end h z (h_close_to h l (Z.to_nat i))
       end.
(** _validate_move, path.py:2261-2269: the scan over the positions [is_]. *)
Fixpoint h_scan_move (h : heap) (l : list nat) (i : Z) (is_ : list Z) : Res heap :=
  match is_ with
  | [] => Ok h
  | j :: r =>
      do s <- pyget l j;
      if o_is_move h s then Ok h
      else if o_is_close h s then do m <- pyget l i; Ok (assign_end h s (val h (o_end (gets h m))))
      else h_scan_move h l i r
  end.
Definition h_move (h : heap) (l : list nat) (i : Z) : Res heap :=
  h_scan_move h l i (map (fun k => i + 1 + Z.of_nat k) (seq 0 (Z.to_nat (Z.of_nat (length l) - (i + 1))))).
(** validate_connections, path.py:2311-2339. [z] is zpoint: the end point object of a segment, not a copy of it. *)
Fixpoint h_connect (h : heap) (z : option nat) (prev : nat) (l : list nat) : heap :=
  match l with
  | [] => h
  | s :: r =>
      let z1 := match z with None => o_end (gets h s) | Some _ => if o_is_move h s then o_end (gets h s) else z end in
      let h1 := h_link false h prev s in
      let h2 := match z1 with
                | Some q => if o_is_close h1 s && negb (onear (val h1 (o_end (gets h1 s))) (Some (getp h1 q)))
                            then assign_end h1 s (Some (getp h1 q)) else h1
                | None => h1
                end in
      h_connect h2 z1 s r
  end.
Definition h_connections (h : heap) (l : list nat) : heap :=
  match l with [] => h | s :: r => h_connect h (o_end (gets h s)) s r end.

(** A path and the heap it lives in. The operations below are given segment objects, as the code is. *)
Definition st := (heap * list nat)%type.
(** append, path.py:2595-2609. *)
Definition h_append (x : st) (s : nat) : Res st :=
  let '(h, l) := x in
  let l1 := l ++ [s] in
  let h1 := h_connection false h l1 (Z.of_nat (length l) - 1) in
  if o_is_close h1 s then do h2 <- h_close h1 l1 (Z.of_nat (length l)); Ok (h2, l1) else Ok (h1, l1).
(** The checks at the end of insert and of __setitem__, path.py:2060-2067, 2619-2624. *)
Definition h_checks (h : heap) (l : list nat) (i : Z) (s : nat) : Res st :=
  let h1 := h_connection false (h_connection false h l (i - 1)) l i in
  do h2 <- (if o_is_move h1 s then h_move h1 l i else Ok h1);
  do h3 <- (if o_is_close h2 s then h_close h2 l i else Ok h2);
  Ok (h3, l).
(** insert, path.py:2611-2624. *)
Definition h_insert (x : st) (i : Z) (s : nat) : Res st := h_checks (fst x) (pyinsert (snd x) i s) i s.
(** __setitem__ with a position, path.py:2046-2067. *)
Definition h_setitem (x : st) (i : Z) (s : nat) : Res st := do l <- pyset (snd x) i s; h_checks (fst x) l i s.
(** __setitem__ with a slice. *)
Definition h_setslice (x : st) (a b : option Z) (v : list nat) : st :=
  let l := pysplice (snd x) a b v in (h_connections (fst x) l, l).
(** __delitem__, path.py:2069-2078. *)
Definition h_delitem (x : st) (i : Z) : Res st :=
  let '(h, l) := x in
  match pyidx (length l) i with
  | None => Err IndexError
  | Some k =>
      do s <- pyget l i;
      let l1 := pydel l k in
      let h1 := h_connection false h l1 (i - 1) in
      Ok (if o_is_close h1 s || o_is_move h1 s then h_subpath h1 l1 i else h1, l1)
  end.
(** extend, path.py:2626-2633. *)
Definition h_extend (x : st) (v : list nat) : st :=
  let '(h, l) := x in
  let i := Z.of_nat (length l) - 1 in
  let l1 := l ++ v in
  (h_subpath (h_connection false h l1 i) l1 i, l1).
(** direct_close, path.py:2635-2657. *)
Fixpoint h_direct_from (n : nat) (x : st) : Res st :=
  match n with
  | O => Ok x
  | S i =>
      let '(h, l) := x in
      match nth_error l i with
      | None => Err IndexError
      | Some z =>
          if o_is_close h z && has_length (read h z) then
            let o := gets h z in
            let '(s, h1) := construct h (mkSeg KLine (val h (o_start o)) (val h (o_end o)) false true) in
            do y <- h_insert (assign_start h1 z (val h1 (o_end (gets h1 z))), l) (Z.of_nat i) s;
            h_direct_from i y
          else h_direct_from i x
      end
  end.
Definition h_direct_close (x : st) : Res st := h_direct_from (length (snd x)) x.

(** The loop of _reverse_segments, path.py:2963-2972: whether there are two segments is asked of the objects. *)
Fixpoint h_rev_loop (fuel : nat) (x : st) (s e : Z) : Res st :=
  if s <=? e then
    match fuel with
    | O => Err Unmodelled
    | S f =>
        let '(h, l) := x in
        do a <- pyget l s;
        do b <- pyget l e;
        let h1 := h_reverse h a in
        if Nat.eqb a b then h_rev_loop f (h1, l) (s + 1) (e - 1)
        else
          do l1 <- pyset l s b;
          do l2 <- pyset l1 e a;
          h_rev_loop f (h_reverse h1 b, l2) (s + 1) (e - 1)
    end
  else Ok x.
Definition h_reverse_segments (x : st) (u : sub) (start end_ : Z) : Res st :=
  let s := numeric_index u start in
  let e := numeric_index u end_ in
  do y <- h_rev_loop (Z.to_nat (e - s + 2)) x s e;
  let '(h, l) := y in
  Ok (h_connection false (h_connection true h l (s - 1)) l e, l).
(** Subpath.reverse, path.py:2978-3001. *)
Definition h_sub_reverse (x : st) (u : sub) : Res st :=
  let size := sub_len u in
  if size =? 0 then Ok x
  else
    do l0 <- pyget (snd x) (numeric_index u (-1));
    do f0 <- pyget (snd x) (numeric_index u 0);
    let e := if o_is_close (fst x) l0 then size - 2 else size - 1 in
    let s := if o_is_move (fst x) f0 then 1 else 0 in
    do y <- h_reverse_segments x u s e;
    let '(h1, l) := y in
    do f1 <- pyget l (numeric_index u 0);
    do h2 <- (if (1 <? size) && o_is_move h1 f1 then
                do n1 <- pyget l (numeric_index u 1); Ok (assign_end h1 f1 (val h1 (o_start (gets h1 n1))))
              else Ok h1);
    do last <- pyget l (numeric_index u (-1));
    if o_is_close h2 last then
      let h3 := h_reverse h2 last in
      do b <- pyget l (numeric_index u (-2));
      let be := val h3 (o_end (gets h3 b)) in
      let h4 := if onear (val h3 (o_start (gets h3 last))) be then h3 else assign_start h3 last be in
      do f <- pyget l (numeric_index u 0);
      let fe := val h4 (o_end (gets h4 f)) in
      let h5 := if onear (val h4 (o_end (gets h4 last))) fe then h4 else assign_end h4 last fe in
      Ok (h5, l)
    else Ok (h2, l).
Fixpoint h_reverse_all (x : st) (us : list sub) : Res st :=
  match us with [] => Ok x | u :: r => do y <- h_sub_reverse x u; h_reverse_all y r end.
(** as_subpaths, path.py:2682-2688. *)
Fixpoint h_subpaths_from (h : heap) (last cur : Z) (l : list nat) : list sub :=
  match l with
  | [] => [mkSub last (cur - 1)]
  | s :: r =>
      if negb (cur =? last) && o_is_move h s then mkSub last (cur - 1) :: h_subpaths_from h cur (cur + 1) r
      else h_subpaths_from h last (cur + 1) r
  end.
(** The segments iterating a Subpath yields, path.py:2867-2884. *)
Fixpoint iter_range {A} (l : list A) (n : nat) (i : Z) : list A :=
  match n with
  | O => []
  | S n' => match pyget l i with Ok s => s :: iter_range l n' (i + 1) | Err _ => [] end
  end.
Definition h_sub_list (l : list nat) (u : sub) : list nat := iter_range l (Z.to_nat (u_end u - u_start u + 1)) (u_start u).
(** path += subpath (path += path): the copies are made while extend reads them, path.py:2080-2089. *)
Definition h_add_copies (x : st) (src : list nat) : st :=
  let '(h, l) := x in let '(v, h1) := copy_all h src in h_extend (h1, l) v.
(** Path.reverse, path.py:2659-2672: prepoint is kept as an object. *)
Definition h_path_reverse (x : st) : Res st :=
  let '(h, l) := x in
  match l with
  | [] => Ok x
  | f :: _ =>
      let prepoint := o_start (gets h f) in
      let h0 := share_start h f None in
      let us := h_subpaths_from h0 0 0 l in
      do y <- h_reverse_all (h0, l) us;
      let '(h1, l1) := y in
      let '(h2, l2) := fold_left (fun z u => h_add_copies z (h_sub_list l1 u)) (rev us) (h1, []) in
      match l2 with
      | [] => Err IndexError
      | g :: _ => Ok (share_start h2 g prepoint, l2)
      end
  end.
(** subpath *= matrix, path.py:2850-2856. *)
Fixpoint h_imul_all (m : pt -> pt) (h : heap) (l : list nat) : Res heap :=
  match l with [] => Ok h | s :: r => do h1 <- h_imul m h s; h_imul_all m h1 r end.

(** The drawing methods, path.py:2441-2592: the segment they construct, of the values of the path so far. *)
Inductive drawing :=
| DMove (a : parg) (rel : bool) | DLine (a : parg) (rel : bool)
| DVertical (v : option Qc) (rel : bool) | DHorizontal (v : option Qc) (rel : bool)
| DSmoothQuad (a : parg) (rel : bool) | DQuad (c a : parg) (rel : bool)
| DSmoothCubic (c2 a : parg) (rel : bool) | DCubic (c1 c2 a : parg) (rel : bool)
| DArc (rx ry rot : option Qc) (large sweep : option bool) (a : parg) (rel : bool)
| DClose (rel : bool).
Definition drawn (d : drawing) (p : path) : Res seg :=
  match d with
  | DMove a rel => Ok (mkSeg KMove (current_point p) (resolve p a) rel true)
  | DLine a rel => Ok (mkSeg KLine (current_point p) (resolve p a) rel true)
  | DVertical v rel =>
      match current_point p, v with
      | None, _ => Err AttributeError
      | Some c, Some y => Ok (mkSeg KLine (Some c) (Some (fst c, if rel then snd c + y else y)%Qc) rel true)
      | Some _, None => Err (if rel then TypeError else Unmodelled)
      end
  | DHorizontal v rel =>
      match current_point p, v with
      | None, _ => Err AttributeError
      | Some c, Some x => Ok (mkSeg KLine (Some c) (Some (if rel then fst c + x else x, snd c)%Qc) rel true)
      | Some _, None => Err (if rel then TypeError else Unmodelled)
      end
  | DSmoothQuad a rel => do c <- smooth_point p; Ok (mkSeg (KQuad c) (current_point p) (resolve p a) rel true)
  | DQuad c a rel => Ok (mkSeg (KQuad (resolve p c)) (current_point p) (resolve p a) rel false)
  | DSmoothCubic c2 a rel =>
      do c1 <- smooth_point p; do k <- cubic_kind c1 (resolve p c2);
      Ok (mkSeg k (current_point p) (resolve p a) rel true)
  | DCubic c1 c2 a rel =>
      do k <- cubic_kind (resolve p c1) (resolve p c2); Ok (mkSeg k (current_point p) (resolve p a) rel false)
  | DArc rx ry rot large sweep a rel =>
      match current_point p, resolve p a with
      | Some s, Some e =>
          let g := mkSeg (KArc (mkArc (orq rx) (orq ry) (orq rot) (orb_ large) (orb_ sweep))) (Some s) (Some e) rel true in
          if near s e || isz rx || isz ry then Ok g
          else match rx, ry, rot with Some _, Some _, Some _ => Ok g | _, _, _ => Err TypeError end
      | _, _ => Err TypeError
      end
  | DClose rel => Ok (mkSeg KClose (current_point p) (z_point p) rel true)
  end.
Definition h_draw (x : st) (d : drawing) : Res st :=
  let '(h, l) := x in
  do v <- drawn d (reads h l);
  let '(s, h1) := construct h v in h_append (h1, l) s.

(** Path data, path.py:104-326: the parser reads what comes next and calls a drawing method. [next_...] is the call it makes and what is left to
    read, of the values of the path so far; see the steps of PathText_Model. *)
Definition next1 (d : parg -> bool -> drawing) (rel : bool) (s : lex) (p : path) : Res (lex * drawing) :=
  do c <- coordr rel p s; do a <- or_close (snd c) (fst c); Ok (snd c, d a rel).
Definition next2 (d : parg -> parg -> bool -> drawing) (rel : bool) (s : lex) (p : path) : Res (lex * drawing) :=
  do c1 <- coordr rel p s; do c2 <- coordr rel p (snd c1);
  do a1 <- or_close (snd c2) (fst c1); do a2 <- or_close (snd c2) (fst c2); Ok (snd c2, d a1 a2 rel).
Definition next3 (d : parg -> parg -> parg -> bool -> drawing) (rel : bool) (s : lex) (p : path) : Res (lex * drawing) :=
  do c1 <- coordr rel p s; do c2 <- coordr rel p (snd c1); do c3 <- coordr rel p (snd c2);
  do a1 <- or_close (snd c3) (fst c1); do a2 <- or_close (snd c3) (fst c2); do a3 <- or_close (snd c3) (fst c3);
  Ok (snd c3, d a1 a2 a3 rel).
Definition nextv (d : option Qc -> bool -> drawing) (rel : bool) (s : lex) (p : path) : Res (lex * drawing) :=
  let '(v, s1) := number s in Ok (s1, d v rel).
Definition nexta (rel : bool) (s : lex) (p : path) : Res (lex * drawing) :=
  let '(rx, s1) := number s in
  let '(ry, s2) := number s1 in
  let '(rot, s3) := number s2 in
  let '(large, s4) := flag s3 in
  let '(sweep, s5) := flag s4 in
  do c <- coordr rel p s5;
  if rel && match sweep with None => true | Some _ => false end then Err ValueError
  else do a <- or_close (snd c) (fst c); Ok (snd c, DArc rx ry rot large sweep a rel).
Definition next_point (d : parg -> bool -> drawing) (rel : bool) (s : lex) (p : path) : Res (lex * drawing) :=
  do c <- coordr rel p s; match fst c with Some q => Ok (snd c, d (APt q) rel) | None => Err Unmodelled end.
Definition h_step (next : lex -> path -> Res (lex * drawing)) (s : lex) (x : st) : Res (lex * st) :=
  do n <- next s (reads (fst x) (snd x)); do y <- h_draw x (snd n); Ok (fst n, y).
Inductive h_outcome := HFin (s : lex) (x : st) | HExc (e : exn) | HOut.
Fixpoint h_do_loop (fuel : nat) (next : lex -> path -> Res (lex * drawing)) (s : lex) (x : st) : h_outcome :=
  match fuel with
  | O => HOut
  | S n =>
      match h_step next s x with
      | Err e => HExc e
      | Ok (s1, x1) => let '(b, s2) := more s1 in if b then h_do_loop n next s2 x1 else HFin s2 x1
      end
  end.
Definition h_while_loop (fuel : nat) (next : lex -> path -> Res (lex * drawing)) (s : lex) (x : st) : h_outcome :=
  let '(b, s1) := more s in if b then h_do_loop fuel next s1 x else HFin s1 x.
Definition h_run (fuel : nat) (c : Ascii.ascii) (s : lex) (x : st) : h_outcome :=
  let rel := is_lower c in
  let l := letter c in
  if aeqb l "Z" then
    let '(b, s1) := more s in
    if b then HExc ValueError
    else match h_draw x (DClose rel) with Ok y => HFin (mkLex (rem s1) false) y | Err e => HExc e end
  else if aeqb l "M" then
    let '(b, s1) := more s in
    if negb b then HExc ValueError
    else match h_step (next_point DMove rel) s1 x with
         | Err e => HExc e
         | Ok (s2, y) => h_while_loop fuel (next_point DLine rel) s2 y
         end
  else if aeqb l "L" then h_do_loop fuel (next1 DLine rel) s x
  else if aeqb l "T" then h_do_loop fuel (next1 DSmoothQuad rel) s x
  else if aeqb l "H" then h_do_loop fuel (nextv DHorizontal rel) s x
  else if aeqb l "V" then (if rel then h_do_loop fuel (nextv DVertical rel) s x else h_while_loop fuel (nextv DVertical rel) s x)
  else if aeqb l "C" then h_do_loop fuel (next3 DCubic rel) s x
  else if aeqb l "Q" then h_do_loop fuel (next2 DQuad rel) s x
  else if aeqb l "S" then h_do_loop fuel (next2 DSmoothCubic rel) s x
  else h_while_loop fuel (nexta rel) s x.
Fixpoint h_commands (fuel : nat) (s : lex) (x : st) : h_outcome :=
  match fuel with
  | O => HOut
  | S n =>
      match lex_command s with
      | None => HFin s x
      | Some (c, s1) => match h_run n c s1 x with HFin s2 y => h_commands n s2 y | o => o end
      end
  end.
Definition h_parse (t : text) (x : st) : Res st :=
  match h_commands (fuel_for t) (mkLex t false) x with HFin _ y => Ok y | HExc e => Err e | HOut => Err Unmodelled end.

(** A program that uses any number of paths: the heap and its paths, in the order they were made. A path number that
    is not there is a NameError. *)
Record world := mkW { w_heap : heap; w_paths : list (list nat) }.
Definition empty_world : world := mkW (mkH [] []) [].
(** What a statement of such a program does. Segments given are made by calling a constructor in the statement. *)
Inductive stmt :=
| SNew                                             (** Path() *)
| SNewSegs (vs : list seg)                         (** Path(Move(...), Line(...), ...) *)
| SNewList (vs : list seg)                         (** Path([Move(...), Line(...), ...]) *)
| SDraw (k : nat) (d : drawing)                    (** path.line(...), ... *)
| SAppend (k : nat) (v : seg)                      (** path.append(Line(...)), path += Line(...) *)
| SInsert (k : nat) (i : Z) (v : seg)              (** path.insert(i, Line(...)) *)
| SSet (k : nat) (i : Z) (v : seg)                 (** path[i] = Line(...) *)
| SSetSlice (k : nat) (a b : option Z) (vs : list seg) (** path[a:b] = [Line(...), ...] *)
| SDel (k : nat) (i : Z)                           (** del path[i] *)
| SDelSlice (k : nat) (a b : option Z)             (** del path[a:b] *)
| SExtend (k : nat) (vs : list seg)                (** path.extend([Line(...), ...]) *)
| SAddPath (k j : nat)                             (** path += other *)
| SAddSub (k j : nat) (u : sub)                    (** path += Subpath(other, a, b) *)
| SValidate (k : nat)                              (** path.validate_connections() *)
| SDirect (k : nat)                                (** path.direct_close() *)
| SReverse (k : nat)                               (** path.reverse() *)
| SReverseSub (k : nat) (u : sub)                  (** Subpath(path, a, b).reverse() *)
| SScale (k : nat) (i : Z) (m : pt -> pt)          (** s = path[i]; s *= matrix *)
| SScaleSet (k : nat) (i : Z) (m : pt -> pt)       (** path[i] *= matrix, which also stores the segment at i *)
| SScaleSub (k : nat) (u : sub) (m : pt -> pt)     (** sub = Subpath(path, a, b); sub *= matrix *)
| SNewText (t : text)                              (** Path("M0,0 ...") *)
| SText (k : nat) (t : text)                       (** path.parse("l1,1"), path += "l1,1" *)
| SCopy (j : nat)                                  (** copy(path), Path(path) *)
| SPlus (j i : nat)                                (** path + other *)
| SPlusText (j : nat) (t : text)                   (** path + "l1,1" *)
| STextPlus (t : text) (j : nat)                   (** "M0,0" + path *)
.
Definition with_path (w : world) (k : nat) (f : st -> Res st) : Res world :=
  match nth_error (w_paths w) k with
  | None => Err NameError
  | Some l => do y <- f (w_heap w, l); Ok (mkW (fst y) (upd (w_paths w) k (snd y)))
  end.
Definition with_new (v : seg) (f : st -> nat -> Res st) (x : st) : Res st :=
  let '(s, h1) := construct (fst x) v in f (h1, snd x) s.
Definition with_news (vs : list seg) (f : st -> list nat -> Res st) (x : st) : Res st :=
  let '(l, h1) := construct_all (fst x) vs in f (h1, snd x) l.
(** A path that is made, and one that is read. *)
Definition with_made (w : world) (x : Res st) : Res world := do y <- x; Ok (mkW (fst y) (w_paths w ++ [snd y])).
Definition with_source (w : world) (j : nat) (f : list nat -> Res world) : Res world :=
  match nth_error (w_paths w) j with None => Err NameError | Some l => f l end.
(** copy(path), path.py:1990-1995: Path(path) has no segments to copy, path.py:1966-1988. *)
Definition h_copy_path (h : heap) (src : list nat) : st := let '(l, h1) := copy_all h [] in (h1, l).
Definition step (w : world) (c : stmt) : Res world :=
  match c with
  | SNew => Ok (mkW (w_heap w) (w_paths w ++ [[]]))
  | SNewSegs vs => let '(l, h) := construct_all (w_heap w) vs in Ok (mkW h (w_paths w ++ [l]))
  | SNewList vs => let '(l, h) := construct_all (w_heap w) vs in Ok (mkW (h_connections h l) (w_paths w ++ [l]))
  | SDraw k d => with_path w k (fun x => h_draw x d)
  | SAppend k v => with_path w k (with_new v h_append)
  | SInsert k i v => with_path w k (with_new v (fun x s => h_insert x i s))
  | SSet k i v => with_path w k (with_new v (fun x s => h_setitem x i s))
  | SSetSlice k a b vs => with_path w k (with_news vs (fun x l => Ok (h_setslice x a b l)))
  | SDel k i => with_path w k (fun x => h_delitem x i)
  | SDelSlice k a b => with_path w k (fun x => Ok (h_setslice x a b []))
  | SExtend k vs => with_path w k (with_news vs (fun x l => Ok (h_extend x l)))
  | SAddPath k j =>
      match nth_error (w_paths w) j with
      | None => Err NameError
      | Some src => with_path w k (fun x => Ok (h_add_copies x src))
      end
  | SAddSub k j u =>
      match nth_error (w_paths w) j with
      | None => Err NameError
      | Some src => with_path w k (fun x => Ok (h_add_copies x (h_sub_list src u)))
      end
  | SValidate k => with_path w k (fun x => Ok (h_connections (fst x) (snd x), snd x))
  | SDirect k => with_path w k h_direct_close
  | SReverse k => with_path w k h_path_reverse
  | SReverseSub k u => with_path w k (fun x => h_sub_reverse x u)
  | SScale k i m => with_path w k (fun x => do s <- pyget (snd x) i; do h <- h_imul m (fst x) s; Ok (h, snd x))
  | SScaleSet k i m =>
      with_path w k (fun x => do s <- pyget (snd x) i; do h <- h_imul m (fst x) s; h_setitem (h, snd x) i s)
  | SScaleSub k u m =>
      with_path w k (fun x => do h <- h_imul_all m (fst x) (h_sub_list (snd x) u); Ok (h, snd x))
  | SNewText t => with_made w (h_parse t (w_heap w, []))
  | SText k t => with_path w k (h_parse t)
  | SCopy j => with_source w j (fun src => with_made w (Ok (h_copy_path (w_heap w) src)))
  | SPlus j i => with_source w j (fun src => with_source w i (fun other => with_made w (Ok (h_add_copies (h_copy_path (w_heap w) src) other))))
  | SPlusText j t => with_source w j (fun src => with_made w (h_parse t (h_copy_path (w_heap w) src)))
  | STextPlus t j => with_source w j (fun src => with_made w (do y <- h_parse t (w_heap w, []); Ok (h_add_copies y src)))
  end.
Fixpoint exec (w : world) (cs : list stmt) : Res world :=
  match cs with [] => Ok w | c :: r => do w1 <- step w c; exec w1 r end.

(** The statements that pass on segment objects a path already holds, path.py:1966-1988, 2080-2089, 2595-2633:
    Path(subpath), Path([other[i], ...]), Path(other[i], ...), path.append(other[i]), path.extend(other). path.extend(path)
    reads the list while it grows and does not end: Unmodelled. *)
Inductive sharing :=
| HNewSub (j : nat) (u : sub)
| HNewList (j : nat) (is_ : list Z)
| HNewSegs (j : nat) (is_ : list Z)
| HAppend (k j : nat) (i : Z)
| HExtend (k j : nat).
Fixpoint pygets (l : list nat) (is_ : list Z) : Res (list nat) :=
  match is_ with [] => Ok [] | i :: r => do s <- pyget l i; do q <- pygets l r; Ok (s :: q) end.
Definition share (w : world) (c : sharing) : Res world :=
  let src (j : nat) (f : list nat -> Res world) :=
    match nth_error (w_paths w) j with None => Err NameError | Some l => f l end in
  match c with
  | HNewSub j u =>
      src j (fun l => Ok (mkW (w_heap w) (w_paths w ++ [pyslice l (Some (u_start u)) (Some (u_end u + 1))])))
  | HNewList j is_ =>
      src j (fun l => do q <- pygets l is_; Ok (mkW (h_connections (w_heap w) q) (w_paths w ++ [q])))
  | HNewSegs j is_ => src j (fun l => do q <- pygets l is_; Ok (mkW (w_heap w) (w_paths w ++ [q])))
  | HAppend k j i => src j (fun l => do s <- pyget l i; with_path w k (fun x => h_append x s))
  | HExtend k j =>
      src j (fun l => if Nat.eqb k j then Err Unmodelled else with_path w k (fun x => Ok (h_extend x l)))
  end.
