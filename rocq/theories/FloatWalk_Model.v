(** Which segment of a path a position falls on, in binary floating point: path.py:2138-2156, 2201-2236. *)
Require Import ZArith List Bool.
From Flocq Require Import Core BinarySingleNaN.
Require Import Verif.Base Verif.Float_Model.
Import ListNotations.

(** sum(lengths): from the integer 0, one after the other, as Python does up to 3.11; later versions compensate. *)
Definition fsum (l : list fl) : fl := fold_left fadd l (fz 0).
(** _calc_lengths, path.py:2151-2156: each / self._length. *)
Definition ffractions (lengths : list fl) : list fl :=
  let total := fsum lengths in
  if feq total (fz 0) then lengths else map (fun each => fdiv each total) lengths.
(** The loop of Path.point, path.py:2227-2235. Division by zero raises. [index] and [segment_pos] are those of the end:
    without a break they are the last segment and 0. *)
Fixpoint fwalk (index : nat) (segment_start : fl) (fractions : list fl) (position : fl) : Res (nat * fl) :=
  match fractions with
  | [] => Ok ((index - 1)%nat, fz 0)
  | f :: r =>
      let segment_end := fadd segment_start f in
      if fle position segment_end then
        let d := fsub segment_end segment_start in
        if feq d (fz 0) then Err ZeroDivisionError else Ok (index, fdiv (fsub position segment_start) d)
      else fwalk (S index) segment_end r position
  end.
(** Path.point, path.py:2201-2236, up to the point: the segment and the position on it. [lengths] are those of the segments;
    None for a path without segments. int(round(x)) of a number that is not finite raises, which is not modelled. *)
Definition fpath_point (lengths : list fl) (position : fl) : Res (option (nat * fl)) :=
  match lengths with
  | [] => Ok None
  | _ =>
      if fle position (fz 0) then Ok (Some (0%nat, position))
      else if fle (fz 1) position then Ok (Some ((length lengths - 1)%nat, position))
      else if feq (fsum lengths) (fz 0) then Ok (Some (Z.to_nat (fround (fmul position (fz (Z.of_nat (length lengths) - 1)))), fz 0))
      else rmap Some (fwalk 0 (fz 0) (ffractions lengths) position)
  end.
