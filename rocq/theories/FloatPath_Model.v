(** Path data in binary floating point: the drawing methods of Path and PathLexicalParser, svgio/path.py:22-326, 355-366,
    2243-2609, as in Path_Model and PathText_Model but with Python's floats, and Path.svg_d. What does not compute with
    numbers is taken from there. Arcs carry their SVG arguments only, as in Path_Model; their centres, computed at
    creation, are not modelled, nor the exceptions that may raise. *)
Require Import ZArith Ascii String List Bool.
Require Import Verif.Base Verif.Path_Model Verif.PathText_Model Verif.PathD_Model Verif.Float_Model Verif.FloatText_Model.
Import ListNotations.
Open Scope Z_scope.

Notation pt_f := (fl * fl)%type.
(** Point.__eq__, basic.py:1475-1484: each coordinate within ERROR = 1e-12. *)
Definition near1_f (a b : fl) : bool := fle (fabs (fsub a b)) (fratio false 1 1000000000000).
Definition near_f (p q : pt_f) : bool := near1_f (fst p) (fst q) && near1_f (snd p) (snd q).
(** Comparing points that may be None. *)
Definition onear_f (a b : option pt_f) : bool :=
  match a, b with Some p, Some q => near_f p q | None, None => true | _, _ => false end.
Definition padd_f (p q : pt_f) : pt_f := (fadd (fst p) (fst q), fadd (snd p) (snd q)).
Definition psub_f (p q : pt_f) : pt_f := (fsub (fst p) (fst q), fsub (snd p) (snd q)).
(** Point.reflected_across, basic.py:1773-1774. *)
Definition reflect_f (c p : pt_f) : pt_f := padd_f p (psub_f p c).

(** The SVG arguments of an arc command. *)
Record arcargs_f := mkArc_f { a_rx_f : fl; a_ry_f : fl; a_rot_f : fl; a_large_f : bool; a_sweep_f : bool }.
(** Move, Close, Line, QuadraticBezier, CubicBezier, Arc: path.py:511, 701, 729, 748, 930, 1132. *)
Inductive kind_f :=
| KMove_f | KClose_f | KLine_f
| KQuad_f (c : option pt_f)
| KCubic_f (c1 c2 : option pt_f)
| KArc_f (a : arcargs_f).
(** PathSegment, path.py:355-366. *)
Record seg_f := mkSeg_f { s_kind_f : kind_f; s_start_f : option pt_f; s_end_f : option pt_f; s_rel_f : bool; s_smooth_f : bool }.
Definition path_f := list seg_f.
Definition is_move_f (s : seg_f) : bool := match s_kind_f s with KMove_f => true | _ => false end.
Definition is_close_f (s : seg_f) : bool := match s_kind_f s with KClose_f => true | _ => false end.
Definition set_start_f (s : seg_f) (o : option pt_f) : seg_f := mkSeg_f (s_kind_f s) o (s_end_f s) (s_rel_f s) (s_smooth_f s).
Definition set_end_f (s : seg_f) (o : option pt_f) : seg_f := mkSeg_f (s_kind_f s) (s_start_f s) o (s_rel_f s) (s_smooth_f s).

(** The body of _validate_connection, path.py:2292-2304. *)
Definition link_f (prefer_second : bool) (f s : seg_f) : seg_f * seg_f :=
  match s_end_f f, s_start_f s with
  | Some e, None => (f, set_start_f s (Some e))
  | None, Some b => (set_end_f f (Some b), s)
  | Some e, Some b => if near_f e b then (f, s)
                      else if prefer_second then (set_end_f f (Some b), s) else (f, set_start_f s (Some e))
  | None, None => (f, s)
  end.
(** _validate_connection, path.py:2283-2304: a negative or too large index is ignored. *)
Definition validate_connection2_f (prefer_second : bool) (p : path_f) (i : Z) : path_f :=
  if (i <? 0) || (Z.of_nat (length p) <=? i + 1) then p
  else
    let n := Z.to_nat i in
    match nth_error p n, nth_error p (S n) with
    | Some f, Some s => let '(f', s') := link_f prefer_second f s in upd (upd p n f') (S n) s'
    | _, _ => p
    end.
Definition validate_connection_f := validate_connection2_f false.

(** The last Move among the first [n] segments, path.py:2251-2253, 2271-2275. *)
Fixpoint last_move_f (p : path_f) : option seg_f :=
  match p with
  | [] => None
  | s :: p' => match last_move_f p' with Some m => Some m | None => if is_move_f s then Some s else None end
  end.
(** _validate_close, path.py:2271-2281. Simplified: a Move without an end point gives the close no end
    point (the code makes a Point of None). *)
Definition validate_close_f (p : path_f) (i : nat) : path_f :=
  match nth_error p i with
  | None => p
  | Some z =>
      let e := match last_move_f (firstn (S i) p) with
               | Some m => s_end_f m
               | None => match p with f :: _ => s_end_f f | [] => None end
               end in
      upd p i (set_end_f z e)
  end.
(** append, path.py:2595-2609, for a segment. *)
Definition append_f (p : path_f) (s : seg_f) : path_f :=
  let p1 := validate_connection_f (p ++ [s]) (Z.of_nat (length p) - 1) in
  if is_close_f s then validate_close_f p1 (length p) else p1.

Fixpoint last_seg_f (p : path_f) : option seg_f :=
  match p with [] => None | [s] => Some s | _ :: p' => last_seg_f p' end.
(** current_point, path.py:2384-2392. *)
Definition current_point_f (p : path_f) : option pt_f := match last_seg_f p with Some s => s_end_f s | None => None end.
(** z_point, path.py:2395-2411. *)
Definition z_point_f (p : path_f) : option pt_f :=
  match (match last_move_f p with Some m => s_end_f m | None => None end) with
  | Some e => Some e
  | None => match p with f :: _ => s_end_f f | [] => None end
  end.
(** smooth_point, path.py:2414-2435. None.reflected_across is an AttributeError, reflecting across None a TypeError. *)
Definition reflected_f (c : option pt_f) (cur : option pt_f) : Res (option pt_f) :=
  match c, cur with
  | None, _ => Err AttributeError
  | Some _, None => Err TypeError
  | Some c, Some p => Ok (Some (reflect_f c p))
  end.
Definition smooth_point_f (p : path_f) : Res (option pt_f) :=
  match last_seg_f p with
  | None => Ok None
  | Some s =>
      match s_kind_f s with
      | KQuad_f c => reflected_f c (s_end_f s)
      | KCubic_f _ c2 => reflected_f c2 (s_end_f s)
      | _ => Ok (s_end_f s)
      end
  end.

(** A point argument of a drawing method: a point or the text "z"/"Z", which stands for z_point. *)
Inductive parg_f := APt_f (q : pt_f) | AZ_f.
Definition resolve_f (p : path_f) (a : parg_f) : option pt_f := match a with APt_f q => Some q | AZ_f => z_point_f p end.
(** The constructors used below default to smooth = True (path.py:361-364). *)
(** move, path.py:2441-2452. *)
Definition move_f (p : path_f) (a : parg_f) (rel : bool) : Res path_f :=
  Ok (append_f p (mkSeg_f KMove_f (current_point_f p) (resolve_f p a) rel true)).
(** line, path.py:2454-2465. *)
Definition line_f (p : path_f) (a : parg_f) (rel : bool) : Res path_f :=
  Ok (append_f p (mkSeg_f KLine_f (current_point_f p) (resolve_f p a) rel true)).
(** vertical, path.py:2467-2479, for a number or a missing one: None.x is an AttributeError, adding None a
    TypeError; a Point with one coordinate None is not modelled. *)
Definition vertical_f (p : path_f) (v : option fl) (rel : bool) : Res path_f :=
  match current_point_f p, v with
  | None, _ => Err AttributeError
  | Some c, Some y => Ok (append_f p (mkSeg_f KLine_f (Some c) (Some (fst c, if rel then fadd (snd c) y else y)) rel true))
  | Some _, None => Err (if rel then TypeError else Unmodelled)
  end.
(** horizontal, path.py:2481-2493. *)
Definition horizontal_f (p : path_f) (v : option fl) (rel : bool) : Res path_f :=
  match current_point_f p, v with
  | None, _ => Err AttributeError
  | Some c, Some x => Ok (append_f p (mkSeg_f KLine_f (Some c) (Some (if rel then fadd (fst c) x else x, snd c)) rel true))
  | Some _, None => Err (if rel then TypeError else Unmodelled)
  end.
(** smooth_quad, path.py:2495-2510. *)
Definition smooth_quad_f (p : path_f) (a : parg_f) (rel : bool) : Res path_f :=
  do c <- smooth_point_f p; Ok (append_f p (mkSeg_f (KQuad_f c) (current_point_f p) (resolve_f p a) rel true)).
(** quad, path.py:2512-2527. *)
Definition quad_f (p : path_f) (c a : parg_f) (rel : bool) : Res path_f :=
  Ok (append_f p (mkSeg_f (KQuad_f (resolve_f p c)) (current_point_f p) (resolve_f p a) rel false)).
(** CubicBezier.__init__, path.py:933-936: the second control is tested through the first; a Point of
    None is not modelled. *)
Definition cubic_kind_f (c1 c2 : option pt_f) : Res kind_f :=
  match c1, c2 with
  | None, _ => Ok (KCubic_f None None)
  | Some _, None => Err Unmodelled
  | Some a, Some b => Ok (KCubic_f (Some a) (Some b))
  end.
(** smooth_cubic, path.py:2529-2549. *)
Definition smooth_cubic_f (p : path_f) (c2 a : parg_f) (rel : bool) : Res path_f :=
  do c1 <- smooth_point_f p;
  do k <- cubic_kind_f c1 (resolve_f p c2);
  Ok (append_f p (mkSeg_f k (current_point_f p) (resolve_f p a) rel true)).
(** cubic, path.py:2551-2570. *)
Definition cubic_f (p : path_f) (c1 c2 a : parg_f) (rel : bool) : Res path_f :=
  do k <- cubic_kind_f (resolve_f p c1) (resolve_f p c2);
  Ok (append_f p (mkSeg_f k (current_point_f p) (resolve_f p a) rel false)).
(** arc, path.py:2572-2584, and the guards of Arc._svg_parameterize, path.py:1586-1613: comparing with a
    missing point is a TypeError; a void arc (ends equal or a zero radius) ignores the other arguments;
    otherwise a missing rotation is a TypeError. Missing flags count as False. *)
Definition orq_f (o : option fl) : fl := match o with Some v => v | None => fz 0 end.
Definition isz_f (o : option fl) : bool := match o with Some v => feq v (fz 0) | None => false end.
Definition arc_f (p : path_f) (rx ry rot : option fl) (large sweep : option bool) (a : parg_f) (rel : bool) : Res path_f :=
  match current_point_f p, resolve_f p a with
  | Some s, Some e =>
      let seg_f := mkSeg_f (KArc_f (mkArc_f (orq_f rx) (orq_f ry) (orq_f rot) (orb_ large) (orb_ sweep))) (Some s) (Some e) rel true in
      if near_f s e || isz_f rx || isz_f ry then Ok (append_f p seg_f)
      else match rx, ry, rot with Some _, Some _, Some _ => Ok (append_f p seg_f) | _, _, _ => Err TypeError end
  | _, _ => Err TypeError
  end.
(** closed, path.py:2586-2592. *)
Definition closed_f (p : path_f) (rel : bool) : Res path_f :=
  Ok (append_f p (mkSeg_f KClose_f (current_point_f p) (z_point_f p) rel true)).

(** _number, path.py:58-73. *)
Definition number_f (s : lex) : option fl * lex :=
  let r := drop_sep (rem s) in
  match match_float r with
  | Some (f, r') => (Some (ffnum f), mkLex r' (ic s))
  | None => (None, mkLex r (ic s || starts_z r))
  end.
(** _coord, path.py:87-94. *)
Definition coord_f (s : lex) : Res (option pt_f * lex) :=
  match number_f s with
  | (None, s1) => Ok (None, s1)
  | (Some x, s1) => match number_f s1 with
                    | (None, _) => Err ValueError
                    | (Some y, s2) => Ok (Some (x, y), s2)
                    end
  end.
(** _rcoord, path.py:96-103. *)
Definition rcoord_f (p : path_f) (s : lex) : Res (option pt_f * lex) :=
  do r <- coord_f s;
  Ok (match fst r, current_point_f p with
      | Some q, Some c => Some (padd_f q c)
      | q, _ => q
      end, snd r).
Definition coordr_f (rel : bool) (p : path_f) (s : lex) : Res (option pt_f * lex) := if rel then rcoord_f p s else coord_f s.
(** A missing coordinate is inline_close if set, else ValueError, e.g. path.py:138-141. *)
Definition or_close_f (s : lex) (o : option pt_f) : Res parg_f :=
  match o with Some q => Ok (APt_f q) | None => if ic s then Ok AZ_f else Err ValueError end.

(** One turn of each command's loop: read the arguments and draw. *)
Definition step1_f (draw : path_f -> parg_f -> bool -> Res path_f) (rel : bool) (s : lex) (p : path_f) : Res (lex * path_f) :=
  do c <- coordr_f rel p s; do a <- or_close_f (snd c) (fst c); do q <- draw p a rel; Ok (snd c, q).
Definition step2_f (draw : path_f -> parg_f -> parg_f -> bool -> Res path_f) (rel : bool) (s : lex) (p : path_f) : Res (lex * path_f) :=
  do c1 <- coordr_f rel p s; do c2 <- coordr_f rel p (snd c1);
  do a1 <- or_close_f (snd c2) (fst c1); do a2 <- or_close_f (snd c2) (fst c2);
  do q <- draw p a1 a2 rel; Ok (snd c2, q).
Definition step3_f (draw : path_f -> parg_f -> parg_f -> parg_f -> bool -> Res path_f) (rel : bool) (s : lex) (p : path_f) : Res (lex * path_f) :=
  do c1 <- coordr_f rel p s; do c2 <- coordr_f rel p (snd c1); do c3 <- coordr_f rel p (snd c2);
  do a1 <- or_close_f (snd c3) (fst c1); do a2 <- or_close_f (snd c3) (fst c2); do a3 <- or_close_f (snd c3) (fst c3);
  do q <- draw p a1 a2 a3 rel; Ok (snd c3, q).
Definition stepv_f (draw : path_f -> option fl -> bool -> Res path_f) (rel : bool) (s : lex) (p : path_f) : Res (lex * path_f) :=
  let '(v, s1) := number_f s in do q <- draw p v rel; Ok (s1, q).
(** path.py:289-325: only the relative form checks the sweep flag. *)
Definition stepa_f (rel : bool) (s : lex) (p : path_f) : Res (lex * path_f) :=
  let '(rx, s1) := number_f s in
  let '(ry, s2) := number_f s1 in
  let '(rot, s3) := number_f s2 in
  let '(large, s4) := flag s3 in
  let '(sweep, s5) := flag s4 in
  do c <- coordr_f rel p s5;
  if rel && match sweep with None => true | Some _ => false end then Err ValueError
  else
    do a <- or_close_f (snd c) (fst c);
    do q <- arc_f p rx ry rot large sweep a rel;
    Ok (snd c, q).
(** The lines after a move, path.py:122-124, 130-132: _more is true, so there is a coordinate. *)
Definition step_line_f (rel : bool) (s : lex) (p : path_f) : Res (lex * path_f) :=
  do c <- coordr_f rel p s;
  match fst c with Some q => do r <- line_f p (APt_f q) rel; Ok (snd c, r) | None => Err Unmodelled end.
Definition step_move_f (rel : bool) (s : lex) (p : path_f) : Res (lex * path_f) :=
  do c <- coordr_f rel p s;
  match fst c with Some q => do r <- move_f p (APt_f q) rel; Ok (snd c, r) | None => Err Unmodelled end.

(** A run of the parser: it stops between commands, or with an exception keeping what is drawn; or the
    fuel given is used up (PathText_Thms.path_parse_ends: it never is). *)
Inductive outcome_f := Fin_f (s : lex) (p : path_f) | Exc_f (e : exn) (p : path_f) | OutOfFuel_f.
(** while True: step; if not _more(): break *)
Fixpoint do_loop_f (fuel : nat) (step : lex -> path_f -> Res (lex * path_f)) (s : lex) (p : path_f) : outcome_f :=
  match fuel with
  | O => OutOfFuel_f
  | S n =>
      match step s p with
      | Err e => Exc_f e p
      | Ok (s1, p1) => let '(b, s2) := more s1 in if b then do_loop_f n step s2 p1 else Fin_f s2 p1
      end
  end.
(** while _more(): step *)
Definition while_loop_f (fuel : nat) (step : lex -> path_f -> Res (lex * path_f)) (s : lex) (p : path_f) : outcome_f :=
  let '(b, s1) := more s in if b then do_loop_f fuel step s1 p else Fin_f s1 p.

(** The branches of parse, path.py:116-325. *)
Definition run_f (fuel : nat) (c : ascii) (s : lex) (p : path_f) : outcome_f :=
  let rel := is_lower c in
  let l := letter c in
  if aeqb l "Z" then
    let '(b, s1) := more s in
    if b then Exc_f ValueError p
    else match closed_f p rel with Ok q => Fin_f (mkLex (rem s1) false) q | Err e => Exc_f e p end
  else if aeqb l "M" then
    let '(b, s1) := more s in
    if negb b then Exc_f ValueError p
    else match step_move_f rel s1 p with
         | Err e => Exc_f e p
         | Ok (s2, q) => while_loop_f fuel (step_line_f rel) s2 q
         end
  else if aeqb l "L" then do_loop_f fuel (step1_f line_f rel) s p
  else if aeqb l "T" then do_loop_f fuel (step1_f smooth_quad_f rel) s p
  else if aeqb l "H" then do_loop_f fuel (stepv_f horizontal_f rel) s p
  else if aeqb l "V" then (if rel then do_loop_f fuel (stepv_f vertical_f rel) s p else while_loop_f fuel (stepv_f vertical_f rel) s p)
  else if aeqb l "C" then do_loop_f fuel (step3_f cubic_f rel) s p
  else if aeqb l "Q" then do_loop_f fuel (step2_f quad_f rel) s p
  else if aeqb l "S" then do_loop_f fuel (step2_f smooth_cubic_f rel) s p
  else while_loop_f fuel (stepa_f rel) s p.
(** The command loop, path.py:105-115: it returns quietly where no command can be read. *)
Fixpoint commands_f (fuel : nat) (s : lex) (p : path_f) : outcome_f :=
  match fuel with
  | O => OutOfFuel_f
  | S n =>
      match lex_command s with
      | None => Fin_f s p
      | Some (c, s1) =>
          match run_f n c s1 p with
          | Fin_f s2 q => commands_f n s2 q
          | o => o
          end
      end
  end.
(** Path.parse / Path(text), path.py:1978-1980, 2306-2309: the segments drawn and the exception, if any. *)
Definition parse_f (s : text) (p : path_f) : path_f * option exn :=
  match commands_f (fuel_for s) (mkLex s false) p with
  | Fin_f _ q => (q, None)
  | Exc_f e q => (q, Some e)
  | OutOfFuel_f => (p, Some Unmodelled)
  end.

(** * Printing: svg_d, path.py:2700-2758 and the d methods it calls; see PathD_Model. Curves are printed in full (smooth = False). *)
Definition pstr_f (p : pt_f) : text := fpoint_str (FP (fst p) (snd p)).
Definition ptxt_f (cur : option pt_f) (rel : bool) (p : pt_f) : text :=
  match cur with Some c => if rel then pstr_f (psub_f p c) else pstr_f p | None => pstr_f p end.
Definition cmd_f (up lo : ascii) (cur : option pt_f) (rel : bool) : ascii :=
  if match cur with None => true | Some _ => negb rel end then up else lo.
(** segment.d(current_point, relative=rel, smooth=False), path.py:599-607, 716-746, 905-927, 1103-1129. *)
Definition seg_d_f (s : seg_f) (cur : option pt_f) (rel : bool) : Res text :=
  let P := ptxt_f cur rel in
  match s_kind_f s, s_end_f s with
  | KMove_f, Some e => Ok (words [[cmd_f "M" "m" cur rel]; P e])
  | KClose_f, _ => Ok [cmd_f "Z" "z" cur rel]
  | KLine_f, Some e => Ok (words [[cmd_f "L" "l" cur rel]; P e])
  | KQuad_f (Some c), Some e => Ok (words [[cmd_f "Q" "q" cur rel]; P c; P e])
  | KCubic_f (Some c) (Some d), Some e => Ok (words [[cmd_f "C" "c" cur rel]; P c; P d; P e])
  | _, _ => Err Unmodelled
  end.
(** svg_d(segments, relative, smooth=False), path.py:2700-2752. *)
Fixpoint svg_d_from_f (cur : option pt_f) (rel : bool) (p : path_f) : Res (list text) :=
  match p with
  | [] => Ok []
  | s :: p' => do w <- seg_d_f s cur rel; do ws <- svg_d_from_f (s_end_f s) rel p'; Ok (w :: ws)
  end.
Definition svg_d_f (p : path_f) (rel : bool) : Res text := rmap words (svg_d_from_f (Some (fz 0, fz 0)) rel p).
