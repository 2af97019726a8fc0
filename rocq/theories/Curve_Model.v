(** Geometry of path segments other than arcs, svgio/path.py:419-508, 511-1130, on the reals.
    A segment here is complete: it has all its points (Path_Model.v has those with missing ones). *)
Require Import Reals List.
Require Import Verif.Point_Model Verif.Matrix_Model.
Import ListNotations.
Open Scope R_scope.

(** Move, Line, Close, QuadraticBezier, CubicBezier: path.py:511, 729, 701, 748, 930. *)
Inductive gseg :=
| GMove (s : option pt) (e : pt)
| GLine (a b : pt)
| GClose (a b : pt)
| GQuad (a c b : pt)
| GCubic (a c d b : pt).

Definition g_start (s : gseg) : option pt :=
  match s with GMove o _ => o | GLine a _ | GClose a _ | GQuad a _ _ | GCubic a _ _ _ => Some a end.
Definition g_end (s : gseg) : pt :=
  match s with GMove _ b | GLine _ b | GClose _ b | GQuad _ _ b | GCubic _ _ _ b => b end.

(** numpy.interp(t, [0, 1], [a, b]): constant outside of [0, 1]. *)
Definition interp (a b t : R) : R := if Rle_dec t 0 then a else if Rle_dec 1 t then b else (b - a) * t + a.
(** Linear.npoint, path.py:660-669: with numpy by interp, without by Point.towards. *)
Definition lin_point (np : bool) (a b : pt) (t : R) : pt :=
  if np then P (interp (px a) (px b) t) (interp (py a) (py b) t) else towards a b t.
(** QuadraticBezier.npoint, path.py:809-835. *)
Definition quad1 (x0 x1 x2 t : R) : R := (1 - t) ^ 2 * x0 + 2 * ((1 - t) * t) * x1 + t ^ 2 * x2.
Definition quad_point (a c b : pt) (t : R) : pt := P (quad1 (px a) (px c) (px b) t) (quad1 (py a) (py c) (py b) t).
(** CubicBezier.npoint, path.py:1006-1033. *)
Definition cubic1 (x0 x1 x2 x3 t : R) : R :=
  (1 - t) ^ 3 * x0 + 3 * ((1 - t) * (1 - t) * t * x1 + t * t * (1 - t) * x2) + t ^ 3 * x3.
Definition cubic_point (a c d b : pt) (t : R) : pt :=
  P (cubic1 (px a) (px c) (px d) (px b) t) (cubic1 (py a) (py c) (py d) (py b) t).
(** point, path.py:477-491: a Move is at its end for every parameter. [np]: numpy can be imported. *)
Definition point (np : bool) (s : gseg) (t : R) : pt :=
  match s with
  | GMove _ e => e
  | GLine a b | GClose a b => lin_point np a b t
  | GQuad a c b => quad_point a c b t
  | GCubic a c d b => cubic_point a c d b t
  end.

(** __imul__ by a matrix, path.py:563-571, 639-647, 785-796, 971-984. *)
Definition g_mul (s : gseg) (m : mx) : gseg :=
  let f := apply_mx m in
  match s with
  | GMove o e => GMove (option_map f o) (f e)
  | GLine a b => GLine (f a) (f b)
  | GClose a b => GClose (f a) (f b)
  | GQuad a c b => GQuad (f a) (f c) (f b)
  | GCubic a c d b => GCubic (f a) (f c) (f d) (f b)
  end.
(** reverse, path.py:469-475, 1000-1004. A Move without a start (its end would become None) is left alone. *)
Definition g_reverse (s : gseg) : gseg :=
  match s with
  | GMove (Some a) e => GMove (Some e) a
  | GMove None e => GMove None e
  | GLine a b => GLine b a
  | GClose a b => GClose b a
  | GQuad a c b => GQuad b c a
  | GCubic a c d b => GCubic b d c a
  end.

Fixpoint rmin (x : R) (l : list R) : R := match l with [] => x | y :: r => Rmin x (rmin y r) end.
Fixpoint rmax (x : R) (l : list R) : R := match l with [] => x | y :: r => Rmax x (rmax y r) end.
Record box := mkBox { xmin : R; ymin : R; xmax : R; ymax : R }.
(** PathSegment.bbox, path.py:457-468, of the given points. *)
Definition bbox_of (p : pt) (l : list pt) : box :=
  mkBox (rmin (px p) (map px l)) (rmin (py p) (map py l)) (rmax (px p) (map px l)) (rmax (py p) (map py l)).
(** One axis of QuadraticBezier.bbox, path.py:837-861: the values compared besides the start. *)
Definition quad_values (x0 x1 x2 : R) : list R :=
  let n := x0 - x1 in
  let d := x0 - 2 * x1 + x2 in
  let t := if Req_EM_T d 0 then 1 / 2 else n / d in
  if Rlt_dec 0 t then (if Rlt_dec t 1 then [x2; quad1 x0 x1 x2 t] else [x2]) else [x2].
Definition quad_bbox (a c b : pt) : box :=
  let xs := quad_values (px a) (px c) (px b) in
  let ys := quad_values (py a) (py c) (py b) in
  mkBox (rmin (px a) xs) (rmin (py a) ys) (rmax (px a) xs) (rmax (py a) ys).
(** _real_minmax, path.py:1044-1066: the parameters besides 0. *)
Definition inside01 (t : R) : list R := if Rlt_dec 0 t then (if Rlt_dec t 1 then [t] else []) else [].
Definition extremizers (a0 a1 a2 a3 : R) : list R :=
  let denom := a0 - 3 * a1 + 3 * a2 - a3 in
  1 :: (if Rle_dec (/ 10 ^ 12) (Rabs denom) then
          let delta := a1 ^ 2 - (a0 + a1) * a2 + a2 ^ 2 + (a0 - a1) * a3 in
          if Rle_dec 0 delta then
            let t := a0 - 2 * a1 + a2 in
            inside01 ((t + sqrt delta) / denom) ++ inside01 ((t - sqrt delta) / denom)
          else []
        else [1 / 2]).
Definition cubic_minmax (a0 a1 a2 a3 : R) : R * R :=
  let vs := map (cubic1 a0 a1 a2 a3) (extremizers a0 a1 a2 a3) in
  let v0 := cubic1 a0 a1 a2 a3 0 in
  (rmin v0 vs, rmax v0 vs).
(** CubicBezier.bbox, path.py:1035-1042. *)
Definition cubic_bbox (a c d b : pt) : box :=
  let x := cubic_minmax (px a) (px c) (px d) (px b) in
  let y := cubic_minmax (py a) (py c) (py d) (py b) in
  mkBox (fst x) (fst y) (snd x) (snd y).
Definition bbox (s : gseg) : box :=
  match s with
  | GMove None e => bbox_of e []
  | GMove (Some a) e => bbox_of a [e]
  | GLine a b | GClose a b => bbox_of a [b]
  | GQuad a c b => quad_bbox a c b
  | GCubic a c d b => cubic_bbox a c d b
  end.

(** closest_segment_point, path.py:677-695. The result for a line that is a point is the number 0: [None]. *)
Definition clamp01 (t : R) : R :=
  let t1 := if Rlt_dec 1 t then 1 else t in if Rlt_dec t1 0 then 0 else t1.
Definition closest (np : bool) (a b p : pt) (respect_bounds : bool) : option pt :=
  let apx := px p - px a in let apy := py p - py a in
  let abx := px b - px a in let aby := py b - py a in
  let sq := abx * abx + aby * aby in
  let prod := abx * apx + aby * apy in
  if Req_EM_T sq 0 then None
  else
    let amount := prod / sq in
    Some (lin_point np a b (if respect_bounds then clamp01 amount else amount)).

(** segment_length, path.py:418-450, for the curve [f]; [None] when the fuel is used up. *)
Fixpoint segment_length (fuel : nat) (f : R -> pt) (s e : R) (sp ep : pt) (error : R) (min_depth depth : nat) : option R :=
  match fuel with
  | O => None
  | S n =>
      let mid := (s + e) / 2 in
      let mp := f mid in
      let len := distance_to ep sp in
      let len2 := distance_to mp sp + distance_to ep mp in
      if (if Rlt_dec error (len2 - len) then true else Nat.ltb depth min_depth) then
        match segment_length n f s mid sp mp error min_depth (S depth), segment_length n f mid e mp ep error min_depth (S depth) with
        | Some a, Some b => Some (a + b)
        | _, _ => None
        end
      else Some len2
  end.
(** _line_length, path.py:452-455. *)
Definition line_length (fuel : nat) (f : R -> pt) (error : R) (min_depth : nat) : option R :=
  segment_length fuel f 0 1 (f 0) (f 1) error min_depth 0.
(** Linear.length, path.py:671-675. *)
Definition linear_length (a b : pt) : R := distance b a.
(** QuadraticBezier.length, path.py:863-895. The exceptions caught are division by zero and the logarithm of a
    number that is not positive. *)
Definition quad_length (a c b : pt) : R :=
  let ax := px a - 2 * px c + px b in let ay := py a - 2 * py c + py b in
  let bx := 2 * (px c - px a) in let by_ := 2 * (py c - py a) in
  let A := 4 * (ax ^ 2 + ay ^ 2) in
  let B := 4 * (ax * bx + ay * by_) in
  let C := bx ^ 2 + by_ ^ 2 in
  let Sabc := 2 * sqrt (A + B + C) in
  let A2 := sqrt A in
  let A32 := 2 * A * A2 in
  let C2 := 2 * sqrt C in
  let BA := B / A2 in
  let fallback :=
    let la := hypot ax ay in let lb := hypot bx by_ in
    if Rlt_dec la (/ 10 ^ 10) then lb
    else
      let k := lb / la in
      if Rle_dec 2 k then lb - la else la * (k ^ 2 / 2 - k + 1) in
  if Req_EM_T A2 0 then fallback
  else if Req_EM_T (BA + C2) 0 then fallback
  else
    let x := (2 * A2 + BA + Sabc) / (BA + C2) in
    if Rle_dec x 0 then fallback
    else (A32 * Sabc + A2 * B * (Sabc - C2) + (4 * C * A - B ^ 2) * ln x) / (4 * A32).
(** CubicBezier.length without scipy, path.py:1085-1093. *)
Definition cubic_length (fuel : nat) (a c d b : pt) (error : R) (min_depth : nat) : option R :=
  line_length fuel (cubic_point a c d b) error min_depth.
(** The function CubicBezier._length_scipy integrates, path.py:1073-1083; scipy's quad is not modelled. *)
Definition abs_derivative (a c d b : pt) (t : R) : R :=
  hypot (3 * (px c - px a) * (1 - t) ^ 2 + 6 * (px d - px c) * (1 - t) * t + 3 * (px b - px d) * t ^ 2)
    (3 * (py c - py a) * (1 - t) ^ 2 + 6 * (py d - py c) * (1 - t) * t + 3 * (py b - py d) * t ^ 2).
