(** Path segments and the drawing methods of Path, svgio/path.py:334-1130, 1948-2610, on exact rationals.
    A Path is the list of its segments in order. Points are copied by the code wherever they are stored
    (Point(...)), so values suffice. Arcs carry their SVG arguments only; their geometry is Arc_Model.v. *)
Require Import ZArith QArith Qcanon Qabs List Bool.
Require Import Verif.Base.
Import ListNotations.
Open Scope Z_scope.

Notation pt := (Qc * Qc)%type.
(** Point.__eq__, basic.py:1475-1484: each coordinate within ERROR = 1e-12. *)
Definition near1 (a b : Qc) : bool := Qle_bool (Qabs (this a - this b)) (1 # 1000000000000).
Definition near (p q : pt) : bool := near1 (fst p) (fst q) && near1 (snd p) (snd q).
(** Comparing points that may be None. *)
Definition onear (a b : option pt) : bool :=
  match a, b with Some p, Some q => near p q | None, None => true | _, _ => false end.
Definition padd (p q : pt) : pt := (fst p + fst q, snd p + snd q)%Qc.
Definition psub (p q : pt) : pt := (fst p - fst q, snd p - snd q)%Qc.
(** Point.reflected_across, basic.py:1773-1774. *)
Definition reflect (c p : pt) : pt := padd p (psub p c).

(** The SVG arguments of an arc command. *)
Record arcargs := mkArc { a_rx : Qc; a_ry : Qc; a_rot : Qc; a_large : bool; a_sweep : bool }.
(** Move, Close, Line, QuadraticBezier, CubicBezier, Arc: path.py:511, 701, 729, 748, 930, 1132. *)
Inductive kind :=
| KMove | KClose | KLine
| KQuad (c : option pt)
| KCubic (c1 c2 : option pt)
| KArc (a : arcargs).
(** PathSegment, path.py:355-366. *)
Record seg := mkSeg { s_kind : kind; s_start : option pt; s_end : option pt; s_rel : bool; s_smooth : bool }.
Definition path := list seg.
Definition is_move (s : seg) : bool := match s_kind s with KMove => true | _ => false end.
Definition is_close (s : seg) : bool := match s_kind s with KClose => true | _ => false end.
Definition set_start (s : seg) (o : option pt) : seg := mkSeg (s_kind s) o (s_end s) (s_rel s) (s_smooth s).
Definition set_end (s : seg) (o : option pt) : seg := mkSeg (s_kind s) (s_start s) o (s_rel s) (s_smooth s).

Fixpoint upd {A} (l : list A) (n : nat) (x : A) : list A :=
  match l, n with
  | [], _ => []
  | _ :: l', O => x :: l'
  | y :: l', S n' => y :: upd l' n' x
  end.

(** The body of _validate_connection, path.py:2292-2304. *)
Definition link (prefer_second : bool) (f s : seg) : seg * seg :=
  match s_end f, s_start s with
  | Some e, None => (f, set_start s (Some e))
  | None, Some b => (set_end f (Some b), s)
  | Some e, Some b => if near e b then (f, s)
                      else if prefer_second then (set_end f (Some b), s) else (f, set_start s (Some e))
  | None, None => (f, s)
  end.
(** _validate_connection, path.py:2283-2304: a negative or too large index is ignored. *)
Definition validate_connection2 (prefer_second : bool) (p : path) (i : Z) : path :=
  if (i <? 0) || (Z.of_nat (length p) <=? i + 1) then p
  else
    let n := Z.to_nat i in
    match nth_error p n, nth_error p (S n) with
    | Some f, Some s => let '(f', s') := link prefer_second f s in upd (upd p n f') (S n) s'
    | _, _ => p
    end.
Definition validate_connection := validate_connection2 false.

(** The last Move among the first [n] segments, path.py:2251-2253, 2271-2275. *)
Fixpoint last_move (p : path) : option seg :=
  match p with
  | [] => None
  | s :: p' => match last_move p' with Some m => Some m | None => if is_move s then Some s else None end
  end.
(** _validate_close, path.py:2271-2281. Simplified: a Move without an end point gives the close no end
    point (the code makes a Point of None). *)
Definition validate_close (p : path) (i : nat) : path :=
  match nth_error p i with
  | None => p
  | Some z =>
      let e := match last_move (firstn (S i) p) with
               | Some m => s_end m
               | None => match p with f :: _ => s_end f | [] => None end
               end in
      upd p i (set_end z e)
  end.
(** append, path.py:2595-2609, for a segment. *)
Definition append (p : path) (s : seg) : path :=
  let p1 := validate_connection (p ++ [s]) (Z.of_nat (length p) - 1) in
  if is_close s then validate_close p1 (length p) else p1.

Fixpoint last_seg (p : path) : option seg :=
  match p with [] => None | [s] => Some s | _ :: p' => last_seg p' end.
(** current_point, path.py:2384-2392. *)
Definition current_point (p : path) : option pt := match last_seg p with Some s => s_end s | None => None end.
(** first_point, path.py:2372-2382. *)
Definition first_point (p : path) : option pt :=
  match p with [] => None | s :: _ => match s_start s with Some a => Some a | None => s_end s end end.
(** z_point, path.py:2395-2411. *)
Definition z_point (p : path) : option pt :=
  match (match last_move p with Some m => s_end m | None => None end) with
  | Some e => Some e
  | None => match p with f :: _ => s_end f | [] => None end
  end.
(** smooth_point, path.py:2414-2435. None.reflected_across is an AttributeError, reflecting across None a TypeError. *)
Definition reflected (c : option pt) (cur : option pt) : Res (option pt) :=
  match c, cur with
  | None, _ => Err AttributeError
  | Some _, None => Err TypeError
  | Some c, Some p => Ok (Some (reflect c p))
  end.
Definition smooth_point (p : path) : Res (option pt) :=
  match last_seg p with
  | None => Ok None
  | Some s =>
      match s_kind s with
      | KQuad c => reflected c (s_end s)
      | KCubic _ c2 => reflected c2 (s_end s)
      | _ => Ok (s_end s)
      end
  end.

(** A point argument of a drawing method: a point or the text "z"/"Z", which stands for z_point. *)
Inductive parg := APt (q : pt) | AZ.
Definition resolve (p : path) (a : parg) : option pt := match a with APt q => Some q | AZ => z_point p end.
(** The constructors used below default to smooth = True (path.py:361-364). *)
(** move, path.py:2441-2452. *)
Definition move (p : path) (a : parg) (rel : bool) : Res path :=
  Ok (append p (mkSeg KMove (current_point p) (resolve p a) rel true)).
(** line, path.py:2454-2465. *)
Definition line (p : path) (a : parg) (rel : bool) : Res path :=
  Ok (append p (mkSeg KLine (current_point p) (resolve p a) rel true)).
(** vertical, path.py:2467-2479, for a number or a missing one: None.x is an AttributeError, adding None a
    TypeError; a Point with one coordinate None is not modelled. *)
Definition vertical (p : path) (v : option Qc) (rel : bool) : Res path :=
  match current_point p, v with
  | None, _ => Err AttributeError
  | Some c, Some y => Ok (append p (mkSeg KLine (Some c) (Some (fst c, if rel then snd c + y else y)%Qc) rel true))
  | Some _, None => Err (if rel then TypeError else Unmodelled)
  end.
(** horizontal, path.py:2481-2493. *)
Definition horizontal (p : path) (v : option Qc) (rel : bool) : Res path :=
  match current_point p, v with
  | None, _ => Err AttributeError
  | Some c, Some x => Ok (append p (mkSeg KLine (Some c) (Some (if rel then fst c + x else x, snd c)%Qc) rel true))
  | Some _, None => Err (if rel then TypeError else Unmodelled)
  end.
(** smooth_quad, path.py:2495-2510. *)
Definition smooth_quad (p : path) (a : parg) (rel : bool) : Res path :=
  do c <- smooth_point p; Ok (append p (mkSeg (KQuad c) (current_point p) (resolve p a) rel true)).
(** quad, path.py:2512-2527. *)
Definition quad (p : path) (c a : parg) (rel : bool) : Res path :=
  Ok (append p (mkSeg (KQuad (resolve p c)) (current_point p) (resolve p a) rel false)).
(** CubicBezier.__init__, path.py:933-936: the second control is tested through the first; a Point of
    None is not modelled. *)
Definition cubic_kind (c1 c2 : option pt) : Res kind :=
  match c1, c2 with
  | None, _ => Ok (KCubic None None)
  | Some _, None => Err Unmodelled
  | Some a, Some b => Ok (KCubic (Some a) (Some b))
  end.
(** smooth_cubic, path.py:2529-2549. *)
Definition smooth_cubic (p : path) (c2 a : parg) (rel : bool) : Res path :=
  do c1 <- smooth_point p;
  do k <- cubic_kind c1 (resolve p c2);
  Ok (append p (mkSeg k (current_point p) (resolve p a) rel true)).
(** cubic, path.py:2551-2570. *)
Definition cubic (p : path) (c1 c2 a : parg) (rel : bool) : Res path :=
  do k <- cubic_kind (resolve p c1) (resolve p c2);
  Ok (append p (mkSeg k (current_point p) (resolve p a) rel false)).
(** arc, path.py:2572-2584, and the guards of Arc._svg_parameterize, path.py:1586-1613: comparing with a
    missing point is a TypeError; a void arc (ends equal or a zero radius) ignores the other arguments;
    otherwise a missing rotation is a TypeError. Missing flags count as False. *)
Definition orq (o : option Qc) : Qc := match o with Some v => v | None => 0%Qc end.
Definition isz (o : option Qc) : bool := match o with Some v => Qc_eq_bool v 0%Qc | None => false end.
Definition orb_ (o : option bool) : bool := match o with Some b => b | None => false end.
Definition arc (p : path) (rx ry rot : option Qc) (large sweep : option bool) (a : parg) (rel : bool) : Res path :=
  match current_point p, resolve p a with
  | Some s, Some e =>
      let seg := mkSeg (KArc (mkArc (orq rx) (orq ry) (orq rot) (orb_ large) (orb_ sweep))) (Some s) (Some e) rel true in
      if near s e || isz rx || isz ry then Ok (append p seg)
      else match rx, ry, rot with Some _, Some _, Some _ => Ok (append p seg) | _, _, _ => Err TypeError end
  | _, _ => Err TypeError
  end.
(** closed, path.py:2586-2592. *)
Definition closed (p : path) (rel : bool) : Res path :=
  Ok (append p (mkSeg KClose (current_point p) (z_point p) rel true)).
