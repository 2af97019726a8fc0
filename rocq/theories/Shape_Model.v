(** Outlines of shapes, nodes.py:671-816, 985-1071, 1074-1158, 1161-1220, 1223-1290, over real numbers. *)
Require Import Reals List Ascii String Bool.
Require Import Verif.Base Verif.Angle_Model Verif.Point_Model Verif.Matrix_Model Verif.Arc_Model.
Import ListNotations.
Open Scope R_scope.

(** What values.get gives: a number, text, a list of given length, a Matrix, or None. *)
Inductive sval := SNum (x : R) | SText (t : text) | SList (n : nat) | SMatrix (m : mx) | SNone.
(** A segment of an outline. *)
Inductive oseg := OMove (e : pt) | OLine (s e : pt) | OArc (a : arc) | OClose (s e : pt).
(** Arc(start, end, rx=rx, ry=ry), path.py:1323-1376: a quarter of the ellipse with axes along x and y; the centre is one of the
    other two corners of the box of start and end. *)
Definition arc_axes (start e : pt) (rx ry : R) : arc :=
  let c := P (px start) (py e) in
  let cw := Z.eqb (orientation start c e) 1 in
  let c := if cw then c else P (px e) (py start) in
  mkArc start e c (P (px c + rx) (py c)) (P (px c) (py c + ry)) (tau / 4).
(** Arc(start, end, center, rx=rx, ry=ry, rotation=0, sweep=sweep), path.py:1196-1229, 1337-1360. *)
Definition arc_about (start e c : pt) (rx ry sweep : R) : arc := mkArc start e c (polar c 0 rx) (polar c (0 + tau / 4) ry) sweep.
(** segment * Matrix, path.py:361-374 and each class. *)
Definition oseg_mul (s : oseg) (m : mx) : oseg :=
  match s with
  | OMove e => OMove (apply_mx m e)
  | OLine s e => OLine (apply_mx m s) (apply_mx m e)
  | OArc a => OArc (arc_mul a m)
  | OClose s e => OClose (apply_mx m s) (apply_mx m e)
  end.
(** Matrix.is_identity, basic.py:2269-2277. *)
Definition identity_dec (m : mx) : bool :=
  if Req_EM_T (ma m) 1 then if Req_EM_T (mb m) 0 then if Req_EM_T (mc m) 0 then if Req_EM_T (md m) 1 then if Req_EM_T (me m) 0 then
  if Req_EM_T (mf m) 0 then true else false else false else false else false else false else false.

(** v < 0 < w *)
Definition below_zero (v w : sval) : Res bool :=
  match v with
  | SNum a => if Rlt_dec a 0 then match w with SNum b => Ok (if Rlt_dec 0 b then true else false) | _ => Err TypeError end else Ok false
  | _ => Err TypeError
  end.
(** Rect.segments, nodes.py:736-816. [degenerate] is what self.is_degenerate() gives: no class has this method, see
    [rect_segments_repo]. Sums of text are not modelled. *)
Definition rect_segments (degenerate : Res bool) (x y width height rx ry transform : sval) (transformed : bool) : Res (list oseg) :=
  do dg <- degenerate;
  if dg then Ok []
  else
    do n1 <- below_zero rx width;
    do n <- (if n1 then Ok true else below_zero ry height);
    let rx := if n then SNum 0 else rx in
    let ry := if n then SNum 0 else ry in
    match x, y, width, height, rx, ry with
    | SNum x, SNum y, SNum w, SNum h, SNum rx, SNum ry =>
        let segs :=
          if Req_EM_T rx ry then if Req_EM_T ry 0 then true else false else false in
        let segs :=
          if segs then
            [OMove (P x y); OLine (P x y) (P (x + w) y); OLine (P (x + w) y) (P (x + w) (y + h));
             OLine (P (x + w) (y + h)) (P x (y + h)); OClose (P x (y + h)) (P x y)]
          else
            [OMove (P (x + rx) y);
             OLine (P (x + rx) y) (P (x + w - rx) y);
             OArc (arc_axes (P (x + w - rx) y) (P (x + w) (y + ry)) rx ry);
             OLine (P (x + w) (y + ry)) (P (x + w) (y + h - ry));
             OArc (arc_axes (P (x + w) (y + h - ry)) (P (x + w - rx) (y + h)) rx ry);
             OLine (P (x + w - rx) (y + h)) (P (x + rx) (y + h));
             OArc (arc_axes (P (x + rx) (y + h)) (P x (y + h - ry)) rx ry);
             OLine (P x (y + h - ry)) (P x (y + ry));
             OArc (arc_axes (P x (y + ry)) (P (x + rx) y) rx ry);
             OClose (P (x + rx) y) (P (x + rx) y)] in
        if transformed then
          match transform with
          | SMatrix m => Ok (if identity_dec m then segs else map (fun s => oseg_mul s m) segs)
          | _ => Err AttributeError
          end
        else Ok segs
    | _, _, _, _, _, _ => Err Unmodelled
    end.
Definition rect_segments_repo := rect_segments (Err AttributeError).

(** self.transform.value_scale_x() * self.transform.value_scale_y() < 0, nodes.py:1045-1048, basic.py: the entries a and d. *)
Definition flips (transform : sval) : Res bool :=
  match transform with SMatrix m => Ok (if Rlt_dec (ma m * md m) 0 then true else false) | _ => Err AttributeError end.
(** _RoundShape.point_at_t, nodes.py:939-962. *)
Definition round_point (rotation a b : R) (c : pt) (t : R) : pt :=
  P (px c + a * cos t * cos rotation - b * sin t * sin rotation) (py c + a * cos t * sin rotation + b * sin t * cos rotation).
(** The loop of Ellipse.segments, nodes.py:1058-1069: the arcs from t_start. Their ends agree, so that Path.append changes none. *)
Fixpoint ellipse_arcs (n : nat) (rotation a b : R) (c : pt) (t step : R) : list oseg :=
  match n with
  | O => []
  | S n => OArc (arc_about (round_point rotation a b c t) (round_point rotation a b c (t + step)) c a b step) :: ellipse_arcs n rotation a b c (t + step) step
  end.
(** Ellipse.segments, nodes.py:1029-1071. [rotation] is what self.rotation gives: no class has this attribute. The last step,
    Path.segments(True), reads the attribute transform that Path does not have. *)
Definition ellipse_segments (rotation : Res R) (cx cy rx ry transform : sval) (transformed : bool) : Res (list oseg) :=
  do f <- (if transformed then flips transform else Ok false);
  let step := if f then - (tau / 4) else tau / 4 in
  do r <- rotation;
  match cx, cy, rx, ry with
  | SNum cx, SNum cy, SNum a, SNum b =>
      let c := P cx cy in
      if transformed then Err AttributeError
      else Ok (OMove (round_point r a b c 0) :: ellipse_arcs 4 r a b c 0 step
               ++ [OClose (round_point r a b c (0 + step + step + step + step)) (round_point r a b c 0)])
  | _, _, _, _ => Err Unmodelled
  end.
Definition ellipse_segments_repo := ellipse_segments (Err AttributeError).
(** Circle.segments, nodes.py:1113-1155: self.rx, which Circle does not have, is read in 1141. *)
Definition circle_segments (transform : sval) (transformed : bool) : Res (list oseg) :=
  do f <- (if transformed then flips transform else Ok false);
  Err AttributeError.

Section Line.
  (** Matrix(text), modelled in Transform_Model. *)
  Variable matrix : text -> Res mx.
  (** Point(x, y), basic.py:1449-1475, for numbers. *)
  Definition point_of (x y : sval) : Res pt :=
    match x, y with SNum a, SNum b => Ok (P a b) | SNum a, SNone => Ok (P a 0) | _, _ => Err Unmodelled end.
  (** point *= transform, basic.py:1537-1570. Where __imul__ and __mul__ give NotImplemented, Python raises TypeError. *)
  Definition point_times (p : pt) (transform : sval) : Res pt :=
    match transform with
    | SMatrix m => Ok (apply_mx m p)
    | SText t => do m <- matrix t; Ok (apply_mx m p)
    | SNum k => Ok (P (k * px p) (k * py p))
    | SNone => Err TypeError
    | SList _ => Err Unmodelled
    end.
  (** Line.segments, nodes.py:1201-1217. *)
  Definition line_segments (x1 y1 x2 y2 transform : sval) (transformed : bool) : Res (list oseg) :=
    do s <- point_of x1 y1;
    do e <- point_of x2 y2;
    do s <- (if transformed then point_times s transform else Ok s);
    do e <- (if transformed then point_times e transform else Ok e);
    Ok [OMove s; OLine s e].
End Line.

(** _Polyshape.segments, nodes.py:1231-1290: after the test of the length comes a local variable that is not yet bound. *)
Definition poly_segments (points : sval) : Res (option (list oseg)) :=
  match points with
  | SText [] | SList 0 => Err NameError
  | SText _ | SList _ | SMatrix _ => Ok None
  | SNum _ | SNone => Err TypeError
  end.
