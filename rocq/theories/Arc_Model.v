(** Arc of svgio/path.py:1132-1945 on the reals. An arc has all of its points; of the constructor the SVG
    parameters (1185-1192) and the forms start, end and one of control, sagitta, bulge, r (1242-1317, 1348-1367) are
    modelled. *)
Require Import Reals ZArith List Bool.
Require Import Verif.Base Verif.Angle_Model Verif.Point_Model Verif.Matrix_Model Verif.Curve_Model.
Import ListNotations.
Open Scope R_scope.

(** path.py:1168-1172 *)
Record arc := mkArc { a_start : pt; a_end : pt; a_center : pt; a_prx : pt; a_pry : pt; a_sweep : R }.

(** Point == Point, basic.py:1475-1484. *)
Definition pt_eqb (p q : pt) : bool :=
  if Rle_dec (Rabs (px p - px q)) (/ 10 ^ 12) then (if Rle_dec (Rabs (py p - py q)) (/ 10 ^ 12) then true else false) else false.

(** rx, ry, get_rotation, path.py:1777-1786. *)
Definition arx (A : arc) : R := distance (a_center A) (a_prx A).
Definition ary (A : arc) : R := distance (a_center A) (a_pry A).
Definition rotation (A : arc) : R := angle (a_center A) (a_prx A).

(** atan2(a * tan(x), b), path.py:1829, 1856. Where cos x = 0 the code multiplies a finite but huge number: floating
    point tan has the sign of x at plus or minus one and three quarters of a half turn. *)
Definition atan2_tan (a x b : R) : R :=
  if Req_EM_T (cos x) 0 then
    if Rlt_dec 0 a then (if Rlt_dec x 0 then - (PI / 2) else PI / 2) else atan2 0 b
  else atan2 (a * tan x) b.
(** The correction of the quadrant, path.py:1830-1833, 1857-1860. *)
Definition ellipse_t (a b x : R) : R :=
  let t := atan2_tan a x b in
  let w := rmod (Rabs x) tau in
  if Rle_dec w (3 * (tau / 4)) then (if Rlt_dec (tau / 4) w then t + tau / 2 else t) else t.
(** point_at_t, path.py:1863-1884. *)
Definition point_at_t (A : arc) (t : R) : pt :=
  let rot := rotation A in
  P (px (a_center A) + arx A * cos t * cos rot - ary A * sin t * sin rot)
    (py (a_center A) + arx A * cos t * sin rot + ary A * sin t * cos rot).
(** angle_at_point, point_at_angle, t_at_point, path.py:1816-1861. *)
Definition angle_at_point (A : arc) (p : pt) : R := angle_to (a_center A) p.
Definition point_at_angle (A : arc) (x : R) : pt :=
  let x := x - rotation A in
  if Req_EM_T (arx A) (ary A) then point_at_t A x else point_at_t A (ellipse_t (arx A) (ary A) x).
Definition t_at_point (A : arc) (p : pt) : R := ellipse_t (arx A) (ary A) (angle_at_point A p - rotation A).
(** get_start_t, get_end_t, path.py:1800-1814, of get_start_angle, get_end_angle, path.py:1788-1798. *)
Definition start_t (A : arc) : R := t_at_point A (point_at_angle A (angle_at_point A (a_start A))).
Definition end_t (A : arc) : R := t_at_point A (point_at_angle A (angle_at_point A (a_end A))).
(** npoint for one position, path.py:1468-1519; with and without numpy alike. *)
Definition arc_point (A : arc) (t : R) : pt :=
  if pt_eqb (a_start A) (a_end A) then
    if Req_EM_T (a_sweep A) 0 then a_start A
    else if Req_EM_T t 0 then a_start A else if Req_EM_T t 1 then a_end A else point_at_t A (start_t A + a_sweep A * t)
  else if Req_EM_T t 0 then a_start A else if Req_EM_T t 1 then a_end A else point_at_t A (start_t A + a_sweep A * t).

(** math.radians and math.degrees *)
Definition math_radians (d : R) : R := d * PI / 180.
Definition math_degrees (r : R) : R := r * 180 / PI.

(** The numbers of _svg_parameterize, path.py:1604-1628, for radii that are already in range. *)
Section Svg.
  Variables (start e : pt) (cosr sinr : R).
  Definition x1prim : R := cosr * ((px start - px e) / 2) + sinr * ((py start - py e) / 2).
  Definition y1prim : R := - sinr * ((px start - px e) / 2) + cosr * ((py start - py e) / 2).
  Definition radius_check (rx ry : R) : R := x1prim * x1prim / (rx * rx) + y1prim * y1prim / (ry * ry).
  (** path.py:1630-1634 *)
  Definition svg_c (rx ry : R) (large swp : bool) : R :=
    let t1 := rx * rx * (y1prim * y1prim) in
    let t2 := ry * ry * (x1prim * x1prim) in
    let c := sqrt (Rabs ((rx * rx * (ry * ry) - t1 - t2) / (t1 + t2))) in
    if Bool.eqb large swp then - c else c.
End Svg.

(** _svg_parameterize, path.py:1586-1679. *)
Definition svg_parameterize (start : pt) (rx ry rot : R) (large swp : bool) (e : pt) : arc :=
  let void := mkArc start e start start start 0 in
  if pt_eqb start e then void
  else if Req_EM_T rx 0 then void
  else if Req_EM_T ry 0 then void
  else
    let cosr := cos (math_radians rot) in
    let sinr := sin (math_radians rot) in
    let x1 := x1prim start e cosr sinr in
    let y1 := y1prim start e cosr sinr in
    let check := radius_check start e cosr sinr rx ry in
    let k := if Rlt_dec 1 check then sqrt check else 1 in
    let rx := rx * k in
    let ry := ry * k in
    let c := svg_c start e cosr sinr rx ry large swp in
    let cx := c * rx * y1 / ry in
    let cy := - c * ry * x1 / rx in
    let center := P (cosr * cx - sinr * cy + (px start + px e) / 2) (sinr * cx + cosr * cy + (py start + py e) / 2) in
    let ux := (x1 - cx) / rx in
    let uy := (y1 - cy) / ry in
    let vx := (- x1 - cx) / rx in
    let vy := (- y1 - cy) / ry in
    let n := sqrt ((ux * ux + uy * uy) * (vx * vx + vy * vy)) in
    let p := ux * vx + uy * vy in
    let d := p / n in
    let d := if Rlt_dec 1 d then 1 else if Rlt_dec d (-1) then -1 else d in
    let delta := math_degrees (acos d) in
    let delta := if Rlt_dec (ux * vy - uy * vx) 0 then - delta else delta in
    let delta := rmod delta 360 in
    let delta := if swp then delta else delta - 360 in
    let m := post_rotate ident (as_radians (degrees rot)) (Some (px center)) (Some (py center)) in
    mkArc start e center (apply_mx m (P (px center + rx) (py center))) (apply_mx m (P (px center) (py center + ry)))
      (as_radians (degrees delta)).

(** reverse, path.py:1464-1466. *)
Definition arc_reverse (A : arc) : arc :=
  mkArc (a_end A) (a_start A) (a_center A) (a_prx A) (a_pry A) (- a_sweep A).
(** __imul__, path.py:1418-1436. *)
Definition arc_mul (A : arc) (m : mx) : arc :=
  let f := apply_mx m in
  let s := if Rlt_dec (ma m) 0 then - a_sweep A else a_sweep A in
  let s := if Rlt_dec (md m) 0 then - s else s in
  mkArc (f (a_start A)) (f (a_end A)) (f (a_center A)) (f (a_prx A)) (f (a_pry A)) s.

(** int(ceil(x)) *)
Definition ceil (x : R) : Z := (- Int_part (- x))%Z.
(** arc_required by default, path.py:1682-1684, 1717-1719. *)
Definition arc_required (A : arc) : nat := Z.to_nat (ceil (Rabs (a_sweep A) / (tau / 12))).
(** The loop of as_quad_curves, path.py:1700-1714; [n] slices are left. *)
Fixpoint quad_slices (A : arc) (n : nat) (t_slice cur : R) (p_start : pt) : list gseg :=
  match n with
  | O => []
  | S n' =>
      let next := cur + t_slice in
      let mid := (next + cur) / 2 in
      let p_end := match n' with O => a_end A | _ => point_at_t A next end in
      let rot := rotation A in
      let alpha := (4 - cos t_slice) / 3 in
      let c := P (px (a_center A) + alpha * (arx A * cos mid * cos rot - ary A * sin mid * sin rot))
                 (py (a_center A) + alpha * (arx A * cos mid * sin rot + ary A * sin mid * cos rot)) in
      GQuad p_start c p_end :: quad_slices A n' t_slice next p_end
  end.
(** as_quad_curves, path.py:1681-1714. *)
Definition as_quad_curves_n (A : arc) (n : nat) : list gseg := quad_slices A n (a_sweep A / INR n) (start_t A) (a_start A).
Definition as_quad_curves (A : arc) : list gseg := as_quad_curves_n A (arc_required A).
(** The loop of as_cubic_curves, path.py:1733-1762. *)
Fixpoint cubic_slices (A : arc) (n : nat) (t_slice cur : R) (p_start : pt) : list gseg :=
  match n with
  | O => []
  | S n' =>
      let next := cur + t_slice in
      let rot := rotation A in
      let rx := arx A in
      let ry := ary A in
      let alpha := sin t_slice * (sqrt (4 + 3 * tan (t_slice / 2) ^ 2) - 1) / 3 in
      let e1x := - rx * cos rot * sin cur - ry * sin rot * cos cur in
      let e1y := - rx * sin rot * sin cur + ry * cos rot * cos cur in
      let p_end := match n' with
                   | O => a_end A
                   | _ => P (px (a_center A) + rx * cos next * cos rot - ry * sin next * sin rot)
                            (py (a_center A) + rx * cos next * sin rot + ry * sin next * cos rot)
                   end in
      let e2x := - rx * cos rot * sin next - ry * sin rot * cos next in
      let e2y := - rx * sin rot * sin next + ry * cos rot * cos next in
      let c1 := P (px p_start + alpha * e1x) (py p_start + alpha * e1y) in
      let c2 := P (px p_end - alpha * e2x) (py p_end - alpha * e2y) in
      GCubic p_start c1 c2 p_end :: cubic_slices A n' t_slice next p_end
  end.
(** as_cubic_curves, path.py:1716-1762. *)
Definition as_cubic_curves_n (A : arc) (n : nat) : list gseg := cubic_slices A n (a_sweep A / INR n) (start_t A) (a_start A).
Definition as_cubic_curves (A : arc) : list gseg := as_cubic_curves_n A (arc_required A).

(** theta and delta, path.py:1453-1461; start_t is above minus one turn, so one addition is enough. *)
Definition theta (A : arc) : R := match as_positive_degrees 1 (start_t A) with Some v => v | None => 0 end.
Definition delta (A : arc) : R := as_degrees (a_sweep A).
(** bbox, path.py:1889-1921. *)
Definition extreme_x (A : arc) : R :=
  let phi := rotation A in
  if Req_EM_T (cos phi) 0 then tau / 4 else if Req_EM_T (sin phi) 0 then 0 else atan (- (ary A / arx A) * tan phi).
Definition extreme_y (A : arc) : R :=
  let phi := rotation A in
  if Req_EM_T (cos phi) 0 then 0 else if Req_EM_T (sin phi) 0 then tau / 4 else atan (ary A / arx A / tan phi).
Definition angle_inv (A : arc) (ang : R) (k : Z) : R := ((ang + tau / 2 * IZR k) * (360 / tau) - theta A) / delta A.
Definition trema (A : arc) (ang : R) (f : pt -> R) : list R :=
  f (a_start A) :: f (a_end A) ::
  concat (map (fun k => let t := angle_inv A ang k in
                        if Rle_dec 0 t then (if Rle_dec t 1 then [f (arc_point A t)] else []) else [])
              [-4; -3; -2; -1; 0; 1; 2; 3; 4]%Z).
Definition arc_bbox (A : arc) : R * R * R * R :=
  if Req_EM_T (a_sweep A) 0 then (px (a_start A), py (a_start A), px (a_end A), py (a_end A))
  else
    let xs := trema A (extreme_x A) px in
    let ys := trema A (extreme_y A) py in
    let x0 := px (a_start A) in
    let y0 := py (a_start A) in
    (fold_left Rmin xs x0, fold_left Rmin ys y0, fold_left Rmax xs x0, fold_left Rmax ys y0).

(** length, path.py:1551-1570. [ellipeinc] is scipy's, absent without scipy. *)
Definition exact_length (ellipeinc : R -> R -> R) (A : arc) : R :=
  let a := arx A in
  let b := ary A in
  let phi := start_t A in
  let m := 1 - (a / b) ^ 2 in
  b * Rabs (ellipeinc (phi + a_sweep A) m - ellipeinc phi m).
Definition arc_length_of (ellipeinc : option (R -> R -> R)) (fuel : nat) (A : arc) (error : R) (min_depth : nat) : option R :=
  if Req_EM_T (a_sweep A) 0 then Some 0
  else if Rlt_dec (Rabs (arx A - ary A)) (/ 10 ^ 12) then Some (Rabs (arx A * a_sweep A))
  else match ellipeinc with
       | Some f => Some (exact_length f A)
       | None => line_length fuel (arc_point A) error min_depth
       end.
(** The numbers d prints, path.py:1923-1945: radii, rotation in degrees, flags. *)
Definition arc_d (A : arc) : R * R * R * bool * bool :=
  (arx A, ary A, as_degrees (rotation A), if Rlt_dec (tau / 2) (Rabs (a_sweep A)) then true else false, if Rle_dec 0 (a_sweep A) then true else false).

(** Point.orientation, basic.py:1777-1785. *)
Definition orientation (p q r : pt) : Z :=
  let val := (py q - py p) * (px r - px q) - (px q - px p) * (py r - py q) in
  if Req_EM_T val 0 then 0%Z else if Rlt_dec 0 val then 1%Z else 2%Z.
(** The circle about [c] from [start] to [e], path.py:1348-1367: the sweep is found from the two ends. *)
Definition around (start e c prx pry : pt) (cw : bool) : arc :=
  let A := mkArc start e c prx pry 0 in
  let s := end_t A - start_t A in
  let s := if cw then (if Rlt_dec s 0 then s + tau else s) else s in
  let s := if cw then s else (if Rlt_dec 0 s then s - tau else s) in
  mkArc start e c prx pry s.
Definition around_start (start e c : pt) (cw : bool) : arc :=
  let r := distance c start in
  around start e c (P (px c + r) (py c)) (P (px c) (py c + r)) cw.
(** The centre of the circle through three points, path.py:1259-1300. A slope is only divided by or multiplied where it
    is not infinite, except in 1279, where x / inf is 0. *)
Definition control_center (start control e : pt) : Res pt :=
  let ax := px control - px start in let ay := py control - py start in
  let bx := px e - px control in let by_ := py e - py control in
  let ab := towards start control (/ 2) in
  let bc := towards control e (/ 2) in
  if Req_EM_T ay 0 then
    let cx := px ab in
    if Req_EM_T bx 0 then Ok (P cx (py bc))
    else if Req_EM_T (by_ / bx) 0 then Err ZeroDivisionError
    else Ok (P cx (py bc + (px bc - cx) / (by_ / bx)))
  else if Req_EM_T by_ 0 then
    let cx := px bc in
    if Req_EM_T ax 0 then Ok (P cx (py ab)) else Ok (P cx (py ab + (px ab - cx) / (ay / ax)))
  else if Req_EM_T ax 0 then
    if Req_EM_T bx 0 then Err Unmodelled (* inf * 0 *)
    else let cy := py ab in Ok (P (by_ / bx * (py bc - cy) + px bc) cy)
  else if Req_EM_T bx 0 then
    let cy := py bc in Ok (P (ay / ax * (py ab - cy) + px ab) cy)
  else
    let sa := ay / ax in let sb := by_ / bx in
    if Req_EM_T sa sb then Ok ab
    else let cx := (sa * sb * (py ab - py bc) - sa * px bc + sb * px ab) / (sb - sa) in
         Ok (P cx (py ab - (cx - px ab) / sa)).
(** Arc(start=, end=, control=, ccw=), path.py:1257-1301, 1348-1367; [ccw] is None where it is not given. *)
Definition arc_control (start control e : pt) (ccw : option bool) : Res arc :=
  do c <- control_center start control e;
  let cw := match ccw with Some b => negb b | None => Z.eqb (orientation start control e) 2 end in
  Ok (around_start start e c cw).
(** Arc(start=, end=, sagitta=) and bulge=, path.py:1247-1256. *)
Definition arc_sagitta (start e : pt) (sagitta : R) (ccw : option bool) : Res arc :=
  arc_control start (polar (towards start e (/ 2)) (angle_to start e - tau / 4) sagitta) e ccw.
Definition arc_bulge (start e : pt) (bulge : R) (ccw : option bool) : Res arc :=
  arc_sagitta start e (bulge * distance_to start e / 2) ccw.
(** Arc(start=, end=, r=, ccw=), path.py:1302-1322, 1337-1342, 1348-1367. The division by the distance raises for equal points. *)
Definition arc_radius (start e : pt) (r : R) (ccw : option bool) : Res arc :=
  let q := distance start e in
  if Req_EM_T q 0 then Err ZeroDivisionError
  else
    let r := if Rlt_dec r (q / 2) then q / 2 else r in
    let h := sqrt (r ^ 2 - (q / 2) ^ 2) in
    let mx_ := (px start + px e) / 2 in let my_ := (py start + py e) / 2 in
    let c1 := P (mx_ + h * (py start - py e) / q) (my_ + h * (px e - px start) / q) in
    let c2 := P (mx_ - h * (py start - py e) / q) (my_ - h * (px e - px start) / q) in
    let cw := Z.eqb (orientation start c1 e) 1 in
    let asked := match ccw with Some b => b | None => false end in
    let c := if asked && cw || negb cw then c2 else c1 in
    let cw := match ccw with Some b => negb b | None => cw end in
    Ok (around start e c (P (px c + r) (py c)) (P (px c) (py c + r)) cw).
