(** Editing of Path and views through Subpath, svgio/path.py:1966-2130, 2244-2370, 2595-2700, 2754-2785, 2793-3001.
    A Path is the list of its segments; the segment objects in it are taken to be distinct, as its documentation
    asks ("Each one exists only once in each path"), so storing a segment at a position changes that position only;
    Alias_Thms.v proves that this is so for the objects of every program that makes its own segments.
    What a path looks like after an exception is not modelled. *)
Require Import ZArith QArith Qcanon List Bool.
Require Import Verif.Base Verif.Path_Model Verif.PathText_Model.
Import ListNotations.
Open Scope Z_scope.

(** Python's list indexing: negative indices count from the end, others out of range are an IndexError. *)
Definition pyidx (n : nat) (i : Z) : option nat :=
  let j := if i <? 0 then i + Z.of_nat n else i in
  if (0 <=? j) && (j <? Z.of_nat n) then Some (Z.to_nat j) else None.
Definition pyget {A} (p : list A) (i : Z) : Res A :=
  match pyidx (length p) i with
  | None => Err IndexError
  | Some k => match nth_error p k with Some s => Ok s | None => Err IndexError end
  end.
Definition pyset {A} (p : list A) (i : Z) (s : A) : Res (list A) :=
  match pyidx (length p) i with None => Err IndexError | Some k => Ok (upd p k s) end.
(** Bounds of slices and list.insert: negative ones count from the end, all are clamped. *)
Definition pyclamp (n : nat) (i : Z) : nat :=
  let j := if i <? 0 then i + Z.of_nat n else i in
  Z.to_nat (Z.min (Z.max 0 j) (Z.of_nat n)).
Definition lo (n : nat) (o : option Z) : nat := match o with None => O | Some i => pyclamp n i end.
Definition hi (n : nat) (o : option Z) : nat := match o with None => n | Some i => pyclamp n i end.
(** l[a:b] *)
Definition pyslice {A} (p : list A) (a b : option Z) : list A :=
  let i := lo (length p) a in let j := hi (length p) b in firstn (j - i) (skipn i p).
(** l[a:b] = v *)
Definition pysplice {A} (p : list A) (a b : option Z) (v : list A) : list A :=
  let i := lo (length p) a in let j := Nat.max i (hi (length p) b) in firstn i p ++ v ++ skipn j p.
Definition pyinsert {A} (p : list A) (i : Z) (v : A) : list A :=
  let k := pyclamp (length p) i in firstn k p ++ v :: skipn k p.

(** copy(segment), path.py:575, 626, 762, 946, 1390: curves keep the smooth flag, the others get the default. *)
Definition seg_copy (s : seg) : seg :=
  match s_kind s with
  | KQuad _ | KCubic _ _ => s
  | _ => mkSeg (s_kind s) (s_start s) (s_end s) (s_rel s) true
  end.

(** The first Move or Close at or after position [n]. *)
Fixpoint next_break (p : path) (n : nat) : option (nat * seg) :=
  match p with
  | [] => None
  | s :: p' =>
      match n with
      | O => if is_move s || is_close s then Some (O, s)
             else option_map (fun x => (S (fst x), snd x)) (next_break p' O)
      | S n' => option_map (fun x => (S (fst x), snd x)) (next_break p' n')
      end
  end.
(** _validate_subpath, path.py:2244-2259. Simplified as validate_close is: a Move without an end point gives the
    close none. *)
Definition validate_subpath (p : path) (i : Z) : path :=
  if (i <? 0) || (Z.of_nat (length p) <=? i + 1) then p
  else
    let n := Z.to_nat i in
    match next_break p n with
    | None => p
    | Some (j, z) =>
        if is_move z then p
        else
          let e := match last_move (firstn (S n) p) with
                   | Some m => s_end m
                   | None => match p with f :: _ => s_end f | [] => None end
                   end in
          upd p j (set_end z e)
    end.
(** _validate_move, path.py:2261-2269, for a position counted from the front. Called with a negative position the
    scan starts inside range(index + 1, ...) at negative positions; see validate_moveZ. *)
Definition validate_move (p : path) (n : nat) : path :=
  match next_break p (S n), nth_error p n with
  | Some (j, z), Some m => if is_move z then p else upd p j (set_end z (s_end m))
  | _, _ => p
  end.
(** The scan of _validate_move over the positions [is_]. *)
Fixpoint scan_move (p : path) (i : Z) (is_ : list Z) : Res path :=
  match is_ with
  | [] => Ok p
  | j :: r =>
      do s <- pyget p j;
      if is_move s then Ok p
      else if is_close s then do m <- pyget p i; pyset p j (set_end s (s_end m))
      else scan_move p i r
  end.
Definition validate_moveZ (p : path) (i : Z) : Res path :=
  if i <? 0 then scan_move p i (map (fun k => i + 1 + Z.of_nat k) (seq 0 (Z.to_nat (Z.of_nat (length p) - (i + 1)))))
  else Ok (validate_move p (Z.to_nat i)).
(** _validate_close, path.py:2271-2281, at any position: a negative one never meets a Move, one past the end is an
    IndexError. *)
Definition validate_closeZ (p : path) (i : Z) : Res path :=
  if i <? 0 then
    do z <- pyget p i; pyset p i (set_end z (match p with f :: _ => s_end f | [] => None end))
  else if i <? Z.of_nat (length p) then Ok (validate_close p (Z.to_nat i))
  else Err IndexError.

(** validate_connections, path.py:2311-2339. [prev] is last_segment, [z] is zpoint; the linking is that of
    _validate_connection. *)
Fixpoint connect (z : option pt) (prev : seg) (p : path) : path :=
  match p with
  | [] => [prev]
  | s :: p' =>
      let z1 := match z with None => s_end s | Some _ => if is_move s then s_end s else z end in
      let '(prev', s1) := link false prev s in
      let s2 := match z1 with
                | Some q => if is_close s1 && negb (onear (s_end s1) (Some q)) then set_end s1 (Some q) else s1
                | None => s1
                end in
      prev' :: connect z1 s2 p'
  end.
Definition validate_connections (p : path) : path :=
  match p with [] => [] | s :: p' => connect (s_end s) s p' end.
(** _is_valid, path.py:2341-2370. *)
Fixpoint valid_from (z : option pt) (prev : option seg) (p : path) : bool :=
  match p with
  | [] => true
  | s :: p' =>
      let z1 := match z with None => s_end s | Some _ => if is_move s then s_end s else z end in
      match prev with
      | None => true
      | Some f => match s_start s, s_end f with Some a, Some e => near e a | _, _ => false end
      end
      && negb (is_close s && match z1 with Some q => negb (onear (s_end s) (Some q)) | None => false end)
      && valid_from z1 (Some s) p'
  end.
Definition is_valid (p : path) : bool := valid_from None None p.

(** __setitem__ with an integer position and a segment, path.py:2046-2067. *)
Definition setitem (p : path) (i : Z) (v : seg) : Res path :=
  do p1 <- pyset p i v;
  let p2 := validate_connection (validate_connection p1 (i - 1)) i in
  do p3 <- (if is_move v then validate_moveZ p2 i else Ok p2);
  if is_close v then validate_closeZ p3 i else Ok p3.
(** __setitem__ with a slice (no step) and segments. *)
Definition setslice (p : path) (a b : option Z) (v : list seg) : path := validate_connections (pysplice p a b v).
(** __setitem__ with text: Path.segments() asks for self.transform, which Path does not have. *)
Definition setitem_text (p : path) (t : text) : Res path :=
  match parse t [] with
  | (_, Some e) => Err e
  | ([], None) => Ok p
  | (_, None) => Err AttributeError
  end.
(** __delitem__, path.py:2069-2078. *)
Definition pydel {A} (p : list A) (k : nat) : list A := firstn k p ++ skipn (S k) p.
Definition delitem (p : path) (i : Z) : Res path :=
  match pyidx (length p) i with
  | None => Err IndexError
  | Some k =>
      do s <- pyget p i;
      let p1 := validate_connection (pydel p k) (i - 1) in
      Ok (if is_close s || is_move s then validate_subpath p1 i else p1)
  end.
Definition delslice (p : path) (a b : option Z) : path := validate_connections (pysplice p a b []).
(** insert, path.py:2611-2624, of a segment. *)
Definition insert (p : path) (i : Z) (v : seg) : Res path :=
  let p1 := pyinsert p i v in
  let p2 := validate_connection (validate_connection p1 (i - 1)) i in
  do p3 <- (if is_move v then validate_moveZ p2 i else Ok p2);
  if is_close v then validate_closeZ p3 i else Ok p3.
(** insert of text: only the first segment is used. *)
Definition insert_text (p : path) (i : Z) (t : text) : Res path :=
  match parse t [] with
  | (_, Some e) => Err e
  | ([], None) => Ok p
  | (s :: _, None) => insert p i s
  end.
(** extend, path.py:2626-2633. *)
Definition extend (p q : path) : path :=
  let i := Z.of_nat (length p) - 1 in
  validate_subpath (validate_connection (p ++ q) i) i.
(** Linear.length() != 0 for a Close, path.py:671-675. *)
Definition has_length (s : seg) : bool :=
  match s_start s, s_end s with
  | Some a, Some b => negb (if Qc_eq_dec (fst a) (fst b) then (if Qc_eq_dec (snd a) (snd b) then true else false) else false)
  | _, _ => false
  end.
(** direct_close, path.py:2635-2657: from the last position down, every close that has a length gets a line before it.
    Line(...) has the default flags. *)
Fixpoint direct_close_from (n : nat) (p : path) : Res path :=
  match n with
  | O => Ok p
  | S i =>
      match nth_error p i with
      | None => Err IndexError
      | Some z =>
          if is_close z && has_length z then
            do q <- insert (upd p i (set_start z (s_end z))) (Z.of_nat i) (mkSeg KLine (s_start z) (s_end z) false true);
            direct_close_from i q
          else direct_close_from i p
      end
  end.
Definition direct_close (p : path) : Res path := direct_close_from (length p) p.
(** append of text, path.py:2595-2603. *)
Definition append_text (p : path) (t : text) : Res path :=
  match parse t [] with
  | (_, Some e) => Err e
  | ([], None) => Ok p
  | ([s], None) => Ok (append p s)
  | (q, None) => Ok (extend p q)
  end.

(** A Subpath: positions of the first and the last segment in the backing path, path.py:2800-2803. *)
Record sub := mkSub { u_start : Z; u_end : Z }.
(** Subpath.segments(transformed=False), path.py:2912-2918. *)
Definition sub_segments (p : path) (u : sub) : list seg := pyslice p (Some (u_start u)) (Some (u_end u + 1)).
(** What Path(...) is given. *)
Inductive pinit :=
| IText (t : text)
| IPath (p : path)
| ISub (p : path) (u : sub)
| IList (l : list seg)   (** one list or tuple *)
| ISegs (l : list seg)   (** any number of segments *)
.
(** Path.__init__, path.py:1966-1988. There is no case for a Path. *)
Definition path_init (x : pinit) : Res path :=
  match x with
  | IText t => match parse t [] with (q, None) => Ok q | (_, Some e) => Err e end
  | IPath _ => Ok []
  | ISub p u => Ok (sub_segments p u)
  | IList l => Ok (validate_connections l)
  | ISegs l => Ok l
  end.
(** Path.__copy__, path.py:1990-1995. *)
Definition path_copy (p : path) : Res path := do q <- path_init (IPath p); Ok (map seg_copy q).
(** What can be added to a path. *)
Inductive addend := ATextual (t : text) | APath (q : path) | ASub (q : path) (u : sub) | ASeg (s : seg).
(** Iterating a Subpath, path.py:2867-2884: from u_start up to u_end; a negative position reads from the end of
    the path. *)
Definition sub_list (p : path) (u : sub) : list seg :=
  let fix go (n : nat) (i : Z) : list seg :=
    match n with
    | O => []
    | S n' => match pyget p i with Ok s => s :: go n' (i + 1) | Err _ => [] end
    end in
  go (Z.to_nat (u_end u - u_start u + 1)) (u_start u).
(** Path.__iadd__, path.py:2080-2089. *)
Definition path_iadd (p : path) (a : addend) : Res path :=
  match a with
  | ATextual t => match parse t p with (q, None) => Ok q | (_, Some e) => Err e end
  | APath q => Ok (extend p (map seg_copy q))
  | ASub q u => Ok (extend p (map seg_copy (sub_list q u)))
  | ASeg s => Ok (append p s)
  end.
(** Path.__add__, path.py:2091-2096. *)
Definition path_add (p : path) (a : addend) : Res path := do n <- path_copy p; path_iadd n a.
(** Path.__radd__, path.py:2098-2108, for text. *)
Definition path_radd_text (t : text) (p : path) : Res path :=
  do q <- path_init (IText t); Ok (extend q (map seg_copy p)).

(** as_subpaths, path.py:2682-2688. [last] is the start of the subpath being read, [cur] the position reached. *)
Fixpoint subpaths_from (last cur : Z) (p : path) : list sub :=
  match p with
  | [] => [mkSub last (cur - 1)]
  | s :: p' =>
      if negb (cur =? last) && is_move s then mkSub last (cur - 1) :: subpaths_from cur (cur + 1) p'
      else subpaths_from last (cur + 1) p'
  end.
Definition as_subpaths (p : path) : list sub := subpaths_from 0 0 p.

(** Subpath.__len__, path.py:2886-2887. *)
Definition sub_len (u : sub) : Z := u_end u - u_start u + 1.
(** _numeric_index, path.py:2920-2924. *)
Definition numeric_index (u : sub) (i : Z) : Z := if i <? 0 then u_end u + i + 1 else u_start u + i.
(** index_to_path_index, path.py:2926-2938, of a slice without step. *)
Definition slice_index (u : sub) (a b : option Z) : option Z * option Z :=
  (Some (numeric_index u (match a with None => 0 | Some i => i end)),
   Some (numeric_index u (match b with None => sub_len u | Some i => i end))).
(** Subpath.__getitem__, __setitem__, __delitem__, path.py:2808-2816. *)
Definition sub_get (p : path) (u : sub) (i : Z) : Res seg := pyget p (numeric_index u i).
Definition sub_getslice (p : path) (u : sub) (a b : option Z) : list seg :=
  let '(x, y) := slice_index u a b in pyslice p x y.
Definition sub_set (p : path) (u : sub) (i : Z) (v : seg) : Res path := setitem p (numeric_index u i) v.
Definition sub_del (p : path) (u : sub) (i : Z) : Res (path * sub) :=
  do q <- delitem p (numeric_index u i); Ok (q, mkSub (u_start u) (u_end u - 1)).
(** Subpath.__iadd__ of a segment, path.py:2818-2829: inserted at the position of the last segment; the range is
    not extended. *)
Definition sub_iadd (p : path) (u : sub) (v : seg) : Res path := insert p (u_end u) v.

(** reverse of a segment, path.py:469-475, 1000-1004 (CubicBezier), 1464-1466 (Arc: the sweep is negated). *)
Definition kind_reverse (k : kind) : kind :=
  match k with
  | KCubic a b => KCubic b a
  | KArc g => KArc (mkArc (a_rx g) (a_ry g) (a_rot g) (a_large g) (negb (a_sweep g)))
  | _ => k
  end.
Definition seg_reverse (s : seg) : seg := mkSeg (kind_reverse (s_kind s)) (s_end s) (s_start s) (s_rel s) (s_smooth s).
(** The loop of Subpath._reverse_segments, path.py:2963-2972. *)
Fixpoint rev_loop (fuel : nat) (p : path) (s e : Z) : Res path :=
  if s <=? e then
    match fuel with
    | O => Err Unmodelled
    | S f =>
        do a <- pyget p s;
        do b <- pyget p e;
        do p1 <- pyset p s (seg_reverse b);
        do p2 <- (if s =? e then Ok p1 else pyset p1 e (seg_reverse a));
        rev_loop f p2 (s + 1) (e - 1)
    end
  else Ok p.
(** _reverse_segments, path.py:2958-2976. The fuel is more than the number of turns (e - s goes down by two). *)
Definition reverse_segments (p : path) (u : sub) (start end_ : Z) : Res path :=
  let s := numeric_index u start in
  let e := numeric_index u end_ in
  do p1 <- rev_loop (Z.to_nat (e - s + 2)) p s e;
  Ok (validate_connection (validate_connection2 true p1 (s - 1)) e).
(** Subpath.reverse, path.py:2978-3001. Points made of None are left None. *)
Definition sub_reverse (p : path) (u : sub) : Res path :=
  let size := sub_len u in
  if size =? 0 then Ok p
  else
    do l0 <- sub_get p u (-1);
    do f0 <- sub_get p u 0;
    let e := if is_close l0 then size - 2 else size - 1 in
    let s := if is_move f0 then 1 else 0 in
    do p1 <- reverse_segments p u s e;
    do f1 <- sub_get p1 u 0;
    do p2 <- (if (1 <? size) && is_move f1 then
                do n1 <- sub_get p1 u 1; pyset p1 (numeric_index u 0) (set_end f1 (s_start n1))
              else Ok p1);
    do l1 <- sub_get p2 u (-1);
    if is_close l1 then
      let l2 := seg_reverse l1 in
      do p3 <- pyset p2 (numeric_index u (-1)) l2;
      do b <- sub_get p3 u (-2);
      let l3 := if onear (s_start l2) (s_end b) then l2 else set_start l2 (s_end b) in
      do p4 <- pyset p3 (numeric_index u (-1)) l3;
      do f <- sub_get p4 u 0;
      let l4 := if onear (s_end l3) (s_end f) then l3 else set_end l3 (s_end f) in
      pyset p4 (numeric_index u (-1)) l4
    else Ok p2.
Fixpoint reverse_all (p : path) (us : list sub) : Res path :=
  match us with [] => Ok p | u :: r => do q <- sub_reverse p u; reverse_all q r end.
(** Path.reverse, path.py:2659-2672. *)
Definition path_reverse (p : path) : Res path :=
  match p with
  | [] => Ok []
  | f :: r =>
      let p0 := set_start f None :: r in
      let us := as_subpaths p0 in
      do p1 <- reverse_all p0 us;
      match fold_left (fun q u => extend q (map seg_copy (sub_list p1 u))) (rev us) [] with
      | [] => Err IndexError
      | g :: q => Ok (set_start g (s_start f) :: q)
      end
  end.

(** approximate_arcs_with_cubics and _with_quads, path.py:2765-2785; [conv] is what as_cubic_curves/as_quad_curves
    yields for the segment (Arc_Model.v). Positions are visited from the last to the first. *)
Definition is_arc (s : seg) : bool := match s_kind s with KArc _ => true | _ => false end.
Fixpoint approx_from (conv : seg -> list seg) (n : nat) (p : path) : path :=
  match n with
  | O => p
  | S k =>
      match nth_error p k with
      | Some s =>
          approx_from conv k
            (if is_arc s then setslice p (Some (Z.of_nat k)) (Some (Z.of_nat k + 1)) (conv s) else p)
      | None => approx_from conv k p
      end
  end.
Definition approximate_arcs (conv : seg -> list seg) (p : path) : path := approx_from conv (length p) p.
