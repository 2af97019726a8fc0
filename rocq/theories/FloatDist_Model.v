(** Distances and the lengths of polylines in binary floating point: basic.py:1807-1813, path.py:493-501, 671-675, 2138-2153, 2240-2242. *)
Require Import ZArith List Bool.
From Flocq Require Import Core BinarySingleNaN.
Require Import Verif.Base Verif.Float_Model Verif.FloatWalk_Model.
Import ListNotations.

(** math.sqrt: correctly rounded, as IEEE 754 asks; the exception for a negative number cannot happen here. *)
Definition fsqrt (x : fl) : fl := @Bsqrt 53 1024 p53 p1024 mode_NE x.
(** Point.distance, basic.py:1807-1813. *)
Definition fdistance (p1 p2 : fpt) : fl :=
  let dx := fsub (fx p1) (fx p2) in
  let dy := fsub (fy p1) (fy p2) in
  let dx := fmul dx dx in
  let dy := fmul dy dy in
  fsqrt (fadd dx dy).
(** length of Line and Close with both ends, path.py:671-673. *)
Definition fline_length (start stop : fpt) : fl := fdistance stop start.
(** The lengths that _calc_lengths collects, path.py:2151, for Move start and then lines to each of the points. The length of a
    Move is 0, path.py:493-501. *)
Fixpoint flines (start : fpt) (points : list fpt) : list fl :=
  match points with [] => [] | p :: r => fline_length start p :: flines p r end.
Definition fpolyline_lengths (start : fpt) (points : list fpt) : list fl := fz 0 :: flines start points.
(** Path.length, path.py:2152, 2240-2242, for the first time asked. *)
Definition fpolyline_length (start : fpt) (points : list fpt) : fl := fsum (fpolyline_lengths start points).
(** The point of segment i, path.py:477-491, 660-669: of a Move it is its end. *)
Definition fsegment_point (np : bool) (start : fpt) (points : list fpt) (i : nat) (pos : fl) : fpt :=
  match i with
  | O => start
  | S j => let a := nth j (start :: points) start in let b := nth j points start in
           FP (flin1 np (fx a) (fx b) pos) (flin1 np (fy a) (fy b) pos)
  end.
(** Path.point, path.py:2201-2236, of Move start and lines to the points. *)
Definition fpolyline_point (np : bool) (start : fpt) (points : list fpt) (position : fl) : Res (option fpt) :=
  rmap (option_map (fun ip => fsegment_point np start points (fst ip) (snd ip))) (fpath_point (fpolyline_lengths start points) position).
