(** The distance of colours, svgio/basic.py:1364-1366, 1422-1423. *)
Require Import ZArith Reals.
Require Import Verif.Base Verif.Color_Model.

(** Color.distance, basic.py:1364-1366, of two colours, on the reals; distance_to, 1422-1423, is the same. *)
Definition color_distance (v1 v2 : Z) : R := sqrt (IZR (distance_sq v1 v2)).
Definition color_distance_to (v1 v2 : Z) : R := color_distance v1 v2.
