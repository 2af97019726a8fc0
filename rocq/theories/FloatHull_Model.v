(** Point.orientation and Point.convex_hull in binary floating point: basic.py:1776-1805. *)
Require Import ZArith List Bool.
From Flocq Require Import Core BinarySingleNaN.
Require Import Verif.Base Verif.Float_Model.
Import ListNotations.

(** orientation(p, q, r), basic.py:1776-1785. *)
Definition forientation (p q r : fpt) : Z :=
  let val := fsub (fmul (fsub (fy q) (fy p)) (fsub (fx r) (fx q))) (fmul (fsub (fx q) (fx p)) (fsub (fy r) (fy q))) in
  if feq val (fz 0) then 0 else if flt (fz 0) val then 1 else 2.
(** [a is b] for two elements of the de-duplicated list, as in Hull_Model. *)
Definition fsame (a b : fpt) : bool := feq (fx a) (fx b) && feq (fy a) (fy b).
(** sorted(..., key=lambda p: p[0]), basic.py:1791: stable. *)
Fixpoint finsert_x (p : fpt) (l : list fpt) : list fpt :=
  match l with
  | [] => [p]
  | q :: r => if fle (fx p) (fx q) then p :: l else q :: finsert_x p r
  end.
Definition fsort_x (l : list fpt) : list fpt := fold_right finsert_x [] l.
(** The inner for loop, basic.py:1796-1802. *)
Definition fhull_next (points : list fpt) (cur : fpt) : fpt :=
  fold_left (fun e t => if fsame cur e || Z.eqb (forientation cur t e) 2 then t else e) points cur.
(** The while loop, basic.py:1794-1805; [k] bounds the iterations ([None]: not finished). *)
Fixpoint fhull_loop (k : nat) (points : list fpt) (first cur : fpt) : option (list fpt) :=
  match k with
  | O => None
  | S k' =>
      let nxt := fhull_next points cur in
      if fsame first nxt then Some [cur]
      else match fhull_loop k' points first nxt with Some h => Some (cur :: h) | None => None end
  end.
(** convex_hull, basic.py:1787-1805, of list(set(pts)), whose order Python leaves open. *)
Definition fconvex_hull (k : nat) (s : list fpt) : option (list fpt) :=
  match fsort_x s with [] => Some [] | (f :: _) as points => fhull_loop k points f f end.
