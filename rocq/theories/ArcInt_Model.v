(** The length of an arc by a sum, svgio/path.py:1521-1533. *)
Require Import Reals.
Require Import Verif.Base Verif.Point_Model Verif.Arc_Model.
Open Scope R_scope.

(** sum(g(i) for i in range(1, n + 1)), as in path.py:1529. *)
Fixpoint sum_to (g : nat -> R) (n : nat) : R := match n with O => 0 | S k => sum_to g k + g n end.
(** ellipse_part_integral, path.py:1522-1529. [n] is 100000 in the code. *)
Definition ellipse_part_integral (n : nat) (t1 t2 a b : R) : R :=
  let f t := sqrt (1 - (1 - a ^ 2 / b ^ 2) * sin t ^ 2) in
  let start := Rmin t1 t2 in
  let seg_len := Rabs (t1 - t2) / INR n in
  b * sum_to (fun i => f (start + seg_len * INR i) * seg_len) n.
(** _integral_length, path.py:1521-1533. *)
Definition integral_length (n : nat) (A : arc) : R :=
  ellipse_part_integral n (start_t A) (start_t A + a_sweep A) (arx A) (ary A).
