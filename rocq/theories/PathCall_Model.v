(** The drawing methods of Path called with several points at once, svgio/path.py:2441-2584: each draws one segment and calls itself with the
    rest. What was drawn before an exception stays: a call gives the path and the exception, if any. Path_Model has the single segments. *)
Require Import ZArith QArith Qcanon List Bool.
Require Import Verif.Base Verif.Path_Model.
Import ListNotations.

(** One segment after another; [later] is the relative flag of the inner calls. *)
Fixpoint again {A} (f : path -> A -> bool -> Res path) (later : bool -> bool) (p : path) (l : list A) (rel : bool) : path * option exn :=
  match l with
  | [] => (p, None)
  | a :: r => match f p a rel with Err e => (p, Some e) | Ok q => again f later q r (later rel) end
  end.
(** What is left over when points run out: points[0], points[1] or points[2] is an IndexError. [short] is what is raised before it, if anything. *)
Definition then_short (x : path * option exn) (missing : bool) (short : path -> exn) : path * option exn :=
  match x with (q, None) => (q, if missing then Some (short q) else None) | _ => x end.
Definition none {A} (l : list A) : bool := match l with [] => true | _ => false end.
Fixpoint pairs {A} (l : list A) : list (A * A) * bool :=
  match l with a :: b :: r => ((a, b) :: fst (pairs r), snd (pairs r)) | [] => ([], false) | _ => ([], true) end.
Fixpoint triples {A} (l : list A) : list (A * A * A) * bool :=
  match l with a :: b :: c :: r => ((a, b, c) :: fst (triples r), snd (triples r)) | [] => ([], false) | _ => ([], true) end.
Definition index (p : path) : exn := IndexError.
(** self.smooth_point is asked for first. *)
Definition smooth_index (p : path) : exn := match smooth_point p with Err e => e | Ok _ => IndexError end.

(** line, 2454-2465: the inner call has no relative flag. *)
Definition line_call (p : path) (l : list parg) (rel : bool) : path * option exn := then_short (again line (fun _ => false) p l rel) (none l) index.
(** move, 2441-2452: the others are lines. *)
Definition move_call (p : path) (l : list parg) (rel : bool) : path * option exn :=
  match l with
  | [] => (p, Some IndexError)
  | a :: r => match move p a rel with Err e => (p, Some e) | Ok q => if none r then (q, None) else line_call q r rel end
  end.
(** vertical, 2467-2479, horizontal, 2481-2493: the flag is handed on. The current point is asked for first, but not by horizontal with the
    flag False. *)
Definition vertical_call (p : path) (l : list Qc) (rel : bool) : path * option exn :=
  then_short (again (fun p v => vertical p (Some v)) (fun r => r) p l rel) (none l) (fun q => match current_point q with None => AttributeError | Some _ => IndexError end).
Definition horizontal_call (p : path) (l : list Qc) (rel : bool) : path * option exn :=
  then_short (again (fun p v => horizontal p (Some v)) (fun r => r) p l rel) (none l)
    (fun q => match current_point q with None => if rel then AttributeError else IndexError | Some _ => IndexError end).
(** smooth_quad, 2495-2510; quad, 2512-2527; smooth_cubic, 2529-2549; cubic, 2551-2570: the inner calls have no relative flag. *)
Definition smooth_quad_call (p : path) (l : list parg) (rel : bool) : path * option exn :=
  then_short (again smooth_quad (fun _ => false) p l rel) (none l) smooth_index.
Definition quad_call (p : path) (l : list parg) (rel : bool) : path * option exn :=
  then_short (again (fun p x => quad p (fst x) (snd x)) (fun _ => false) p (fst (pairs l)) rel) (none l || snd (pairs l)) index.
Definition smooth_cubic_call (p : path) (l : list parg) (rel : bool) : path * option exn :=
  then_short (again (fun p x => smooth_cubic p (fst x) (snd x)) (fun _ => false) p (fst (pairs l)) rel) (none l || snd (pairs l)) smooth_index.
Definition cubic_call (p : path) (l : list parg) (rel : bool) : path * option exn :=
  then_short (again (fun p x => cubic p (fst (fst x)) (snd (fst x)) (snd x)) (fun _ => false) p (fst (triples l)) rel) (none l || snd (triples l)) index.
(** arc, 2572-2584. Simplified: the arguments come in sixes, all given; [missing]: an incomplete six follows. *)
Record six := mkSix { x_rx : Qc; x_ry : Qc; x_rot : Qc; x_large : bool; x_sweep : bool; x_end : parg }.
Definition arc_call (p : path) (l : list six) (missing : bool) (rel : bool) : path * option exn :=
  then_short (again (fun p x => arc p (Some (x_rx x)) (Some (x_ry x)) (Some (x_rot x)) (Some (x_large x)) (Some (x_sweep x)) (x_end x)) (fun _ => false) p l rel) (none l || missing) index.
