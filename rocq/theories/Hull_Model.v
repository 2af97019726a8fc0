(** Point.orientation and Point.convex_hull, svgio/basic.py (orientation 1776-1785,
    convex_hull 1787-1805), on exact rationals. *)
Require Import ZArith QArith List Bool.
Require Import Verif.Base.
Import ListNotations.
Open Scope Q_scope.

Notation qpt := (Q * Q)%type (only parsing).

(** orientation(p, q, r), basic.py:1776-1785. *)
Definition orientation (p q r : qpt) : Z :=
  let val := (snd q - snd p) * (fst r - fst q) - (fst q - fst p) * (snd r - snd q) in
  if Qeq_bool val 0 then 0%Z else if Qltb 0 val then 1%Z else 2%Z.

(** [a is b] for two elements of the de-duplicated list: after set() different objects have
    different coordinates. *)
Definition same (a b : qpt) : bool := Qeq_bool (fst a) (fst b) && Qeq_bool (snd a) (snd b).

(** sorted(..., key=lambda p: p[0]): a stable sort by x. *)
Fixpoint insert_x (p : qpt) (l : list qpt) : list qpt :=
  match l with
  | [] => [p]
  | q :: l' => if Qle_bool (fst p) (fst q) then p :: l else q :: insert_x p l'
  end.
Definition sort_x (l : list qpt) : list qpt := fold_right insert_x [] l.

(** The inner for loop, basic.py:1797-1802. *)
Definition hull_next (points : list qpt) (cur : qpt) : qpt :=
  fold_left (fun e t => if same cur e || Z.eqb (orientation cur t e) 2 then t else e) points cur.

(** The while loop, basic.py:1794-1805; [k] bounds the iterations ([None]: not finished). *)
Fixpoint hull_loop (k : nat) (points : list qpt) (first cur : qpt) : option (list qpt) :=
  match k with
  | O => None
  | S k' =>
      let nxt := hull_next points cur in
      if same first nxt then Some [cur]
      else match hull_loop k' points first nxt with Some h => Some (cur :: h) | None => None end
  end.

(** convex_hull, basic.py:1787-1805. The argument is list(set(pts)); Python leaves its order open, so
    theorems quantify over every order. *)
Definition convex_hull (k : nat) (s : list qpt) : option (list qpt) :=
  match sort_x s with
  | [] => Some []
  | (f :: _) as points => hull_loop k points f f
  end.
