(** The geometry of round shapes, _RoundShape of svgio/nodes.py:819-982, on the reals. *)
Require Import Reals List Bool.
Require Import Verif.Base Verif.Angle_Model Verif.Point_Model Verif.Matrix_Model Verif.Arc_Model Verif.Shape_Model.
Open Scope R_scope.

(** What the methods read: self.rx, self.ry, self.rotation, self.center and self.transform, for numbers. Where the class has no such
    attribute, the value is an exception. *)
Record round := mkRound { r_rx : Res R; r_ry : Res R; r_rotation : Res R; r_center : pt; r_transform : sval }.
(** Ellipse has no rotation, nodes.py:985-1071; Circle neither rotation nor rx nor ry, nodes.py:1074-1155. *)
Definition ellipse_repo (rx ry : R) (c : pt) (transform : sval) : round := mkRound (Ok rx) (Ok ry) (Err AttributeError) c transform.
Definition circle_repo (c : pt) (transform : sval) : round := mkRound (Err AttributeError) (Err AttributeError) (Err AttributeError) c transform.

(** unit_matrix, nodes.py:822-837. *)
Definition unit_matrix (s : round) : Res mx :=
  do rx <- r_rx s;
  do ry <- r_ry s;
  let m := post_scale ident rx (Some ry) None None in
  do rotation <- r_rotation s;
  let m := post_rotate m rotation None None in
  Ok (post_translate m (px (r_center s)) (py (r_center s))).
(** point_at_t, nodes.py:939-962, and point, nodes.py:964-974. *)
Definition rpoint_at_t (s : round) (t : R) : Res pt :=
  do rotation <- r_rotation s;
  do a <- r_rx s;
  do b <- r_ry s;
  Ok (round_point rotation a b (r_center s) t).
Definition rpoint (s : round) (position : R) : Res pt := rpoint_at_t s (tau * position).
(** point_at_angle, nodes.py:885-904. *)
Definition rpoint_at_angle (s : round) (angle : R) : Res pt :=
  do a <- r_rx s;
  do b <- r_ry s;
  if Req_EM_T a b then rpoint_at_t s angle
  else
    do rotation <- r_rotation s;
    rpoint_at_t s (ellipse_t a b (angle - rotation)).
(** angle_at_point, nodes.py:906-918: both branches measure from the same centre. *)
Definition rangle_at_point (s : round) (p : pt) : Res R :=
  match r_transform s with SMatrix _ => Ok (angle_to (r_center s) p) | _ => Err AttributeError end.
(** t_at_point, nodes.py:920-937. *)
Definition rt_at_point (s : round) (p : pt) : Res R :=
  do angle <- rangle_at_point s p;
  do rotation <- r_rotation s;
  do a <- r_rx s;
  do b <- r_ry s;
  Ok (ellipse_t a b (angle - rotation)).
(** arc_t, nodes.py:839-858, with Arc(start, end, center, rx=, ry=, rotation=, sweep=), path.py:1202-1229, 1337-1360. *)
Definition rarc_t (s : round) (t0 t1 : R) : Res arc :=
  do p <- rpoint_at_t s t0;
  do q <- rpoint_at_t s t1;
  do rx <- r_rx s;
  do ry <- r_ry s;
  do rotation <- r_rotation s;
  let c := r_center s in
  Ok (mkArc p q c (polar c rotation rx) (polar c (rotation + tau / 4) ry) (t1 - t0)).
(** arc_angle, nodes.py:860-883, with Arc(start, end, center, rx=, ry=, rotation=, ccw=), path.py:1202-1229, 1337-1372. *)
Definition rarc_angle (s : round) (a0 a1 : R) (ccw : option bool) : Res arc :=
  let ccw := match ccw with Some b => b | None => if Rlt_dec a1 a0 then true else false end in
  do p <- rpoint_at_angle s a0;
  do q <- rpoint_at_angle s a1;
  do rx <- r_rx s;
  do ry <- r_ry s;
  do rotation <- r_rotation s;
  let c := r_center s in
  Ok (around p q c (polar c rotation rx) (polar c (rotation + tau / 4) ry) (negb ccw)).
(** _ramanujan_length, nodes.py:976-982. sqrt of a negative number raises ValueError. *)
Definition ramanujan_length (s : round) : Res R :=
  do a <- r_rx s;
  do b <- r_ry s;
  let (a, b) := if Rlt_dec a b then (b, a) else (a, b) in
  if Req_EM_T (a + b) 0 then Err ZeroDivisionError
  else
    let h := (a - b) ^ 2 / (a + b) ^ 2 in
    if Rlt_dec (4 - 3 * h) 0 then Err ValueError
    else Ok (PI * (a + b) * (1 + 3 * h / (10 + sqrt (4 - 3 * h)))).
