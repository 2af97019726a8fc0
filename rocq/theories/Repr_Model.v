(** repr() of points, angles, lengths, colours, matrices, segments, arcs and subpaths, and the constructors that the printed text calls:
    svgio/basic.py:290-291, 582-585, 1517-1520, 1926-1955, 2038-2046; path.py:355-367, 519-557, 569-573, 612-624, 707-716,
    732-735, 751-760, 930-944, 1966-1988, 2116-2117, 2892-2893. *)
Require Import ZArith QArith Qcanon Qabs List Ascii String Bool.
Require Import Verif.Base Verif.Fmt_Model Verif.Length_Model Verif.Color_Model Verif.Path_Model Verif.PathText_Model Verif.PathEdit_Model Verif.PathD_Model Verif.PathSeq_Model.
Require Import Verif.Repr_Spec.
Import ListNotations.
Open Scope Z_scope.

(** Point.__repr__, basic.py:1517-1520, for a point with two numbers. *)
Definition point_repr (p : pt) : text := (T "Point(" ++ length_str (this (fst p)) ++ T "," ++ length_str (this (snd p)) ++ T ")")%list.
(** repr of a point or None. *)
Definition opoint_repr (o : option pt) : text := match o with Some p => point_repr p | None => T "None" end.
(** Length.__repr__, basic.py:290-291. *)
Definition length_repr (l : Length_Model.length) : text := (T "Length('" ++ len_str l ++ T "')")%list.
(** Color.__repr__, basic.py:582-585. *)
Definition color_repr (c : color) : text := (T "Color('" ++ color_str c ++ T "')")%list.

(** Entries of a matrix: e and f may be Lengths; the constructor keeps text it is given. *)
Inductive entry := NVal (v : lval) | NText (t : text).
Record matrix := mkM { m_a : Q; m_b : Q; m_c : Q; m_d : Q; m_e : entry; m_f : entry }.
(** Length.str of an entry, basic.py:479-497. "%.12f" of text is a TypeError, so text is printed as it is. *)
Definition entry_str (x : entry) : text := match x with NVal v => static_str v | NText t => t end.
(** Matrix.__repr__, basic.py:2038-2046. *)
Definition matrix_repr (m : matrix) : text :=
  (T "Matrix(" ++ length_str (m_a m) ++ T ", " ++ length_str (m_b m) ++ T ", " ++ length_str (m_c m) ++ T ", " ++
   length_str (m_d m) ++ T ", " ++ entry_str (m_e m) ++ T ", " ++ entry_str (m_f m) ++ T ")")%list.
(** Matrix.__eq__ of two matrices of numbers, basic.py:1960-1979. *)
Definition close12 (x y : Q) : bool := Qle_bool (Qabs (x - y)) (1 # 1000000000000).
Definition matrix_eq (m n : matrix) : Res bool :=
  match m_e m, m_f m, m_e n, m_f n with
  | NVal (VNum e), NVal (VNum f), NVal (VNum e'), NVal (VNum f') =>
      Ok (close12 (m_a m) (m_a n) && close12 (m_b m) (m_b n) && close12 (m_c m) (m_c n) && close12 (m_d m) (m_d n) &&
          close12 e e' && close12 f f')
  | _, _, _, _ => Err Unmodelled
  end.

(** __repr__ of Move 569-573, Close 707-716, Line 732-735, QuadraticBezier 755-760 and CubicBezier 938-944 in path.py. Not
    modelled here: Arc, which prints its center and axes; see [arc_repr]. *)
Definition seg_repr (s : seg) : Res text :=
  match s_kind s with
  | KMove => Ok (match s_start s with
                 | None => T "Move(end=" ++ opoint_repr (s_end s) ++ T ")"
                 | Some _ => T "Move(start=" ++ opoint_repr (s_start s) ++ T ", end=" ++ opoint_repr (s_end s) ++ T ")"
                 end)%list
  | KClose => Ok (match s_start s, s_end s with
                  | None, None => T "Close()"
                  | _, _ => T "Close(start=" ++ opoint_repr (s_start s) ++ T ", end=" ++ opoint_repr (s_end s) ++ T ")"
                  end)%list
  | KLine => Ok (match s_start s with
                 | None => T "Line(end=" ++ opoint_repr (s_end s) ++ T ")"
                 | Some _ => T "Line(start=" ++ opoint_repr (s_start s) ++ T ", end=" ++ opoint_repr (s_end s) ++ T ")"
                 end)%list
  | KQuad c => Ok (T "QuadraticBezier(start=" ++ opoint_repr (s_start s) ++ T ", control=" ++ opoint_repr c ++ T ", end=" ++ opoint_repr (s_end s) ++ T ")")%list
  | KCubic c d => Ok (T "CubicBezier(start=" ++ opoint_repr (s_start s) ++ T ", control1=" ++ opoint_repr c ++ T ", control2=" ++ opoint_repr d ++ T ", end=" ++ opoint_repr (s_end s) ++ T ")")%list
  | KArc _ => Err Unmodelled
  end.
(** ", ".join of the reprs, and Subpath.__repr__, path.py:2892-2893. *)
Fixpoint reprs (l : list seg) : Res text :=
  match l with
  | [] => Ok []
  | [s] => seg_repr s
  | s :: r => do a <- seg_repr s; do b <- reprs r; Ok (a ++ T ", " ++ b)%list
  end.
Definition sub_repr (p : path) (u : sub) : Res text := do b <- reprs (sub_list p u); Ok (T "Path(" ++ b ++ T ")")%list.
(** Path.__repr__, path.py:2116-2117. *)
Definition path_repr (p : path) : Res text := do d <- path_d p None true None; Ok (T "Path(" ++ d ++ T ")")%list.

(** Angle.__repr__, basic.py:1835-1836; an angle is its number of radians. *)
Definition angle_repr (q : Q) : text := (T "Angle(" ++ fmt_f12 q ++ T ")")%list.
(** What Arc.__repr__ and Arc.__eq__ look at, path.py:1132-1245. A sweep is a float, or an Angle if the caller gave one. *)
Inductive sweep := WNone | WFloat (q : Q) | WAngle (q : Q).
Record arcobj := mkArcObj { o_start : option pt; o_end : option pt; o_center : option pt; o_prx : option pt; o_pry : option pt; o_sweep : sweep }.
(** "%s" of a sweep; [fr] is Python's repr of a float. str() of an Angle is its repr. *)
Definition sweep_str (fr : Q -> text) (w : sweep) : text := match w with WNone => T "None" | WFloat q => fr q | WAngle q => angle_repr q end.
(** Arc.__repr__, path.py:1380-1388. *)
Definition arc_repr (fr : Q -> text) (a : arcobj) : text :=
  (T "Arc(" ++ opoint_repr (o_start a) ++ T ", " ++ opoint_repr (o_end a) ++ T ", " ++ opoint_repr (o_center a) ++ T ", " ++
   opoint_repr (o_prx a) ++ T ", " ++ opoint_repr (o_pry a) ++ T ", " ++ sweep_str fr (o_sweep a) ++ T ")")%list.

(** ** Constructors *)
Inductive obj := ONone | ONum (q : Q) | OStr (t : text) | OPoint (p : pt) | OLength (l : Length_Model.length) | OColor (c : color)
| OMatrix (m : matrix) | OSeg (s : seg) | OPath (p : path) | OAngle (q : Q) | OArc (a : arcobj).
Definition kwargs := list (text * obj).
Fixpoint kget (k : text) (d : kwargs) : option obj := match d with [] => None | (n, v) :: r => if teqb n k then Some v else kget k r end.
(** Python: parameters [ps] given positional and keyword arguments; the keywords left over are **kwargs. *)
Fixpoint bind (ps : list text) (pos : list obj) (kw : kwargs) : Res (list (option obj) * kwargs) :=
  match ps, pos with
  | [], [] => Ok ([], kw)
  | [], _ :: _ => Err TypeError
  | p :: ps', v :: pos' =>
      match kget p kw with
      | Some _ => Err TypeError
      | None => do r <- bind ps' pos' kw; Ok (Some v :: fst r, snd r)
      end
  | p :: ps', [] => do r <- bind ps' [] (filter (fun e => negb (teqb (fst e) p)) kw); Ok (kget p kw :: fst r, snd r)
  end.
(** A parameter without default. *)
Definition needed (o : option obj) : Res obj := match o with Some v => Ok v | None => Err TypeError end.
(** Point(x) if x is not None else None; x a Point. *)
Definition as_point (o : obj) : Res (option pt) := match o with ONone => Ok None | OPoint p => Ok (Some p) | _ => Err Unmodelled end.
Definition opt_point (o : option obj) : Res (option pt) := match o with None => Ok None | Some v => as_point v end.
(** bool(x) *)
Definition truth (o : obj) : bool := match o with ONone => false | ONum q => negb (Qeq_bool q 0) | OStr t => negb (Nat.eqb (List.length t) 0) | _ => true end.
(** PathSegment.__init__, path.py:355-367. *)
Definition flag (k : string) (default : bool) (kw : kwargs) : bool := match kget (T k) kw with Some v => truth v | None => default end.
Definition new_seg (k : kind) (s e : option pt) (kw : kwargs) : seg := mkSeg k s e (flag "relative" false kw) (flag "smooth" true kw).
(** Move.__init__, path.py:519-557. *)
Definition move_init (pos : list obj) (kw : kwargs) : Res seg :=
  let '(s, e) :=
    match pos with
    | [] => (kget (T "start") kw, kget (T "end") kw)
    | [p] =>
        match kw with
        | [] => (None, Some p)
        | _ =>
            match kget (T "end") kw with
            | Some e => (Some p, Some e)
            | None => match kget (T "start") kw with Some s => (Some s, Some p) | None => (None, None) end
            end
        end
    | [p; q] => (Some p, Some q)
    | _ => (None, None)
    end in
  do s' <- opt_point s; do e' <- opt_point e; Ok (new_seg KMove s' e' kw).
(** Linear.__init__, path.py:621-624. *)
Definition linear_init (k : kind) (pos : list obj) (kw : kwargs) : Res seg :=
  do r <- bind [T "start"; T "end"] pos kw;
  match fst r with
  | [s; e] => do s' <- opt_point s; do e' <- opt_point e; Ok (new_seg k s' e' (snd r))
  | _ => Err TypeError
  end.
(** QuadraticBezier.__init__, path.py:751-753. *)
Definition quad_init (pos : list obj) (kw : kwargs) : Res seg :=
  do r <- bind [T "start"; T "control"; T "end"] pos kw;
  match fst r with
  | [s; c; e] =>
      do s <- needed s; do c <- needed c; do e <- needed e;
      do s <- as_point s; do e <- as_point e; do c <- as_point c; Ok (new_seg (KQuad c) s e (snd r))
  | _ => Err TypeError
  end.
(** CubicBezier.__init__, path.py:933-936. *)
Definition cubic_init (pos : list obj) (kw : kwargs) : Res seg :=
  do r <- bind [T "start"; T "control1"; T "control2"; T "end"] pos kw;
  match fst r with
  | [s; c; d; e] =>
      do s <- needed s; do c <- needed c; do d <- needed d; do e <- needed e;
      do s <- as_point s; do e <- as_point e; do c <- as_point c; do d <- as_point d; do k <- cubic_kind c d; Ok (new_seg k s e (snd r))
  | _ => Err TypeError
  end.
(** Path(...) of segments, path.py:1966-1988. *)
Fixpoint segs_of (l : list obj) : option (list seg) :=
  match l with [] => Some [] | OSeg s :: r => option_map (cons s) (segs_of r) | _ => None end.
Definition number_of (o : obj) : Res Q := match o with ONum q => Ok q | _ => Err Unmodelled end.
Definition entry_of (o : obj) : Res entry := match o with ONum q => Ok (NVal (VNum q)) | OStr t => Ok (NText t) | _ => Err Unmodelled end.
(** Arc of six positional arguments, path.py:1201-1219: points or None, and the sweep as it is. *)
Definition arc_init (pos : list obj) : Res arcobj :=
  match pos with
  | [s; e; c; x; y; w] =>
      do s <- as_point s; do e <- as_point e; do c <- as_point c; do x <- as_point x; do y <- as_point y;
      do w <- match w with ONone => Ok WNone | ONum q => Ok (WFloat q) | OAngle q => Ok (WAngle q) | _ => Err Unmodelled end;
      Ok (mkArcObj s e c x y w)
  | _ => Err Unmodelled
  end.
(** Calling a class by its name. Angle(number), a float, basic.py:1832. Point(x, y) with numbers, basic.py:1449-1477; Length(text), basic.py:46-58; Color(text),
    basic.py:518-524; Matrix of six components, basic.py:1947-1955, where render changes Lengths only. *)
Definition construct (f : text) (pos : list obj) (kw : kwargs) : Res obj :=
  if teqb f (T "Point") then
    match pos, kw with [x; y], [] => do a <- number_of x; do b <- number_of y; Ok (OPoint (Q2Qc a, Q2Qc b)) | _, _ => Err Unmodelled end
  else if teqb f (T "Length") then
    match pos, kw with [OStr t], [] => Ok (OLength (len_of_text t)) | _, _ => Err Unmodelled end
  else if teqb f (T "Color") then
    match pos, kw with [OStr t], [] => rmap OColor (Color_Model.parse t) | _, _ => Err Unmodelled end
  else if teqb f (T "Matrix") then
    match pos, kw with
    | [a; b; c; d; e; g], [] =>
        do a <- number_of a; do b <- number_of b; do c <- number_of c; do d <- number_of d; do e <- entry_of e; do g <- entry_of g;
        Ok (OMatrix (mkM a b c d e g))
    | _, _ => Err Unmodelled
    end
  else if teqb f (T "Move") then rmap OSeg (move_init pos kw)
  else if teqb f (T "Close") then rmap OSeg (linear_init KClose pos kw)
  else if teqb f (T "Line") then rmap OSeg (linear_init KLine pos kw)
  else if teqb f (T "QuadraticBezier") then rmap OSeg (quad_init pos kw)
  else if teqb f (T "CubicBezier") then rmap OSeg (cubic_init pos kw)
  else if teqb f (T "Path") then match segs_of pos with Some l => rmap OPath (path_init (ISegs l)) | None => Err Unmodelled end
  else if teqb f (T "Angle") then match pos, kw with [ONum q], [] => Ok (OAngle q) | _, _ => Err Unmodelled end
  else if teqb f (T "Arc") then match kw with [] => rmap OArc (arc_init pos) | _ => Err Unmodelled end
  else Err NameError.
(** Python: arguments from left to right, then the call. *)
Fixpoint eval (e : expr) : Res obj :=
  match e with
  | ENum q => Ok (ONum q)
  | EStr t => Ok (OStr t)
  | ENone => Ok ONone
  | ECall f args =>
      (fix go (args : list (option text * expr)) (pos : list obj) (kw : kwargs) : Res obj :=
         match args with
         | [] => construct f pos kw
         | (k, a) :: r => do v <- eval a; match k with None => go r (pos ++ [v])%list kw | Some n => go r pos (kw ++ [(n, v)])%list end
         end) args [] []
  end.
(** eval(text) *)
Definition evaluate (t : text) : Res obj := match python t with Some e => eval e | None => Err Unmodelled end.
