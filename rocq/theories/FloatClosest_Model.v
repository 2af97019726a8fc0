(** closest_segment_point in binary floating point, path.py:677-695. *)
Require Import ZArith List Bool.
From Flocq Require Import Core BinarySingleNaN.
Require Import Verif.Float_Model.

(** The amount within its bounds, path.py:690-694. The ints 1 and 0 become floats when point computes with them. *)
Definition fclamp01 (t : fl) : fl :=
  let t1 := if flt (fz 1) t then fz 1 else t in if flt t1 (fz 0) then fz 0 else t1.
(** closest_segment_point, path.py:677-695, of a line from a to b; point is path.py:660-669. [np]: numpy can be imported. The result
    for a line whose squared length is 0 is the number 0: [None]. *)
Definition fclosest (np : bool) (a b p : fpt) (respect_bounds : bool) : option fpt :=
  let v_ap_x := fsub (fx p) (fx a) in
  let v_ap_y := fsub (fy p) (fy a) in
  let v_ab_x := fsub (fx b) (fx a) in
  let v_ab_y := fsub (fy b) (fy a) in
  let sq_distance_ab := fadd (fmul v_ab_x v_ab_x) (fmul v_ab_y v_ab_y) in
  let ab_ap_product := fadd (fmul v_ab_x v_ap_x) (fmul v_ab_y v_ap_y) in
  if feq sq_distance_ab (fz 0) then None
  else
    let amount := fdiv ab_ap_product sq_distance_ab in
    let amount := if respect_bounds then fclamp01 amount else amount in
    Some (FP (flin1 np (fx a) (fx b) amount) (flin1 np (fy a) (fy b) amount)).
