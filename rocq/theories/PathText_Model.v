(** PathLexicalParser, svgio/path.py:22-326, with the patterns of svgio/constants.py:118-120, 184-189. *)
Require Import ZArith QArith Qcanon Ascii String List Bool.
Require Import Verif.Base Verif.Path_Model.
Import ListNotations.
Open Scope Z_scope.

(** PATTERN_COMMAWSP, constants.py:119. *)
Definition is_sep (c : ascii) : bool :=
  aeqb c " " || aeqb c "," || aeqb c "009" || aeqb c "010" || aeqb c "012" || aeqb c "013".
Fixpoint drop_sep (s : text) : text := match s with c :: r => if is_sep c then drop_sep r else s | [] => [] end.
Definition is_z (c : ascii) : bool := aeqb c "Z" || aeqb c "z".
(** The COMMAND group of svg_parse, constants.py:184. *)
Definition is_command (c : ascii) : bool := existsb (aeqb c) (T "MmZzLlHhVvCcSsQqTtAa").

(** Parser state: the text not yet read and inline_close (whether a z has been seen in place of a number). *)
Record lex := mkLex { rem : text; ic : bool }.

(** _command, path.py:30-40. *)
Definition lex_command (s : lex) : option (ascii * lex) :=
  match drop_sep (rem s) with
  | c :: r => if is_command c then Some (c, mkLex r (ic s)) else None
  | [] => None
  end.
(** What follows, path.py:42-75: num_re at the first character that is not a separator. *)
Definition starts_z (r : text) : bool := match r with c :: _ => is_z c | [] => false end.
(** _more, path.py:42-56. *)
Definition more (s : lex) : bool * lex :=
  let r := drop_sep (rem s) in
  match match_float r with
  | Some _ => (true, mkLex r (ic s))
  | None => (false, mkLex r (ic s || starts_z r))
  end.
(** _number, path.py:58-73. *)
Definition number (s : lex) : option Qc * lex :=
  let r := drop_sep (rem s) in
  match match_float r with
  | Some (f, r') => (Some (Q2Qc (fnum_val f)), mkLex r' (ic s))
  | None => (None, mkLex r (ic s || starts_z r))
  end.
(** _flag, path.py:75-85. *)
Definition flag (s : lex) : option bool * lex :=
  let r := drop_sep (rem s) in
  match r with
  | c :: r' => if aeqb c "0" then (Some false, mkLex r' (ic s))
               else if aeqb c "1" then (Some true, mkLex r' (ic s)) else (None, mkLex r (ic s))
  | [] => (None, mkLex r (ic s))
  end.
(** _coord, path.py:87-94. *)
Definition coord (s : lex) : Res (option pt * lex) :=
  match number s with
  | (None, s1) => Ok (None, s1)
  | (Some x, s1) => match number s1 with
                    | (None, _) => Err ValueError
                    | (Some y, s2) => Ok (Some (x, y), s2)
                    end
  end.
(** _rcoord, path.py:96-103. *)
Definition rcoord (p : path) (s : lex) : Res (option pt * lex) :=
  do r <- coord s;
  Ok (match fst r, current_point p with
      | Some q, Some c => Some (padd q c)
      | q, _ => q
      end, snd r).
Definition coordr (rel : bool) (p : path) (s : lex) : Res (option pt * lex) := if rel then rcoord p s else coord s.
(** A missing coordinate is inline_close if set, else ValueError, e.g. path.py:138-141. *)
Definition or_close (s : lex) (o : option pt) : Res parg :=
  match o with Some q => Ok (APt q) | None => if ic s then Ok AZ else Err ValueError end.

(** One turn of each command's loop: read the arguments and draw. *)
Definition step1 (draw : path -> parg -> bool -> Res path) (rel : bool) (s : lex) (p : path) : Res (lex * path) :=
  do c <- coordr rel p s; do a <- or_close (snd c) (fst c); do q <- draw p a rel; Ok (snd c, q).
Definition step2 (draw : path -> parg -> parg -> bool -> Res path) (rel : bool) (s : lex) (p : path) : Res (lex * path) :=
  do c1 <- coordr rel p s; do c2 <- coordr rel p (snd c1);
  do a1 <- or_close (snd c2) (fst c1); do a2 <- or_close (snd c2) (fst c2);
  do q <- draw p a1 a2 rel; Ok (snd c2, q).
Definition step3 (draw : path -> parg -> parg -> parg -> bool -> Res path) (rel : bool) (s : lex) (p : path) : Res (lex * path) :=
  do c1 <- coordr rel p s; do c2 <- coordr rel p (snd c1); do c3 <- coordr rel p (snd c2);
  do a1 <- or_close (snd c3) (fst c1); do a2 <- or_close (snd c3) (fst c2); do a3 <- or_close (snd c3) (fst c3);
  do q <- draw p a1 a2 a3 rel; Ok (snd c3, q).
Definition stepv (draw : path -> option Qc -> bool -> Res path) (rel : bool) (s : lex) (p : path) : Res (lex * path) :=
  let '(v, s1) := number s in do q <- draw p v rel; Ok (s1, q).
(** path.py:289-325: only the relative form checks the sweep flag. *)
Definition stepa (rel : bool) (s : lex) (p : path) : Res (lex * path) :=
  let '(rx, s1) := number s in
  let '(ry, s2) := number s1 in
  let '(rot, s3) := number s2 in
  let '(large, s4) := flag s3 in
  let '(sweep, s5) := flag s4 in
  do c <- coordr rel p s5;
  if rel && match sweep with None => true | Some _ => false end then Err ValueError
  else
    do a <- or_close (snd c) (fst c);
    do q <- arc p rx ry rot large sweep a rel;
    Ok (snd c, q).
(** The lines after a move, path.py:122-124, 130-132: _more is true, so there is a coordinate. *)
Definition step_line (rel : bool) (s : lex) (p : path) : Res (lex * path) :=
  do c <- coordr rel p s;
  match fst c with Some q => do r <- line p (APt q) rel; Ok (snd c, r) | None => Err Unmodelled end.
Definition step_move (rel : bool) (s : lex) (p : path) : Res (lex * path) :=
  do c <- coordr rel p s;
  match fst c with Some q => do r <- move p (APt q) rel; Ok (snd c, r) | None => Err Unmodelled end.

(** A run of the parser: it stops between commands, or with an exception keeping what is drawn; or the
    fuel given is used up (PathText_Thms.path_parse_ends: it never is). *)
Inductive outcome := Fin (s : lex) (p : path) | Exc (e : exn) (p : path) | OutOfFuel.
(** while True: step; if not _more(): break *)
Fixpoint do_loop (fuel : nat) (step : lex -> path -> Res (lex * path)) (s : lex) (p : path) : outcome :=
  match fuel with
  | O => OutOfFuel
  | S n =>
      match step s p with
      | Err e => Exc e p
      | Ok (s1, p1) => let '(b, s2) := more s1 in if b then do_loop n step s2 p1 else Fin s2 p1
      end
  end.
(** while _more(): step *)
Definition while_loop (fuel : nat) (step : lex -> path -> Res (lex * path)) (s : lex) (p : path) : outcome :=
  let '(b, s1) := more s in if b then do_loop fuel step s1 p else Fin s1 p.

Definition is_lower (c : ascii) : bool := let n := nat_of_ascii c in Nat.leb 97 n && Nat.leb n 122.
Definition letter (c : ascii) : ascii := if is_lower c then ascii_of_nat (nat_of_ascii c - 32) else c.
(** The branches of parse, path.py:116-325. *)
Definition run (fuel : nat) (c : ascii) (s : lex) (p : path) : outcome :=
  let rel := is_lower c in
  let l := letter c in
  if aeqb l "Z" then
    let '(b, s1) := more s in
    if b then Exc ValueError p
    else match closed p rel with Ok q => Fin (mkLex (rem s1) false) q | Err e => Exc e p end
  else if aeqb l "M" then
    let '(b, s1) := more s in
    if negb b then Exc ValueError p
    else match step_move rel s1 p with
         | Err e => Exc e p
         | Ok (s2, q) => while_loop fuel (step_line rel) s2 q
         end
  else if aeqb l "L" then do_loop fuel (step1 line rel) s p
  else if aeqb l "T" then do_loop fuel (step1 smooth_quad rel) s p
  else if aeqb l "H" then do_loop fuel (stepv horizontal rel) s p
  else if aeqb l "V" then (if rel then do_loop fuel (stepv vertical rel) s p else while_loop fuel (stepv vertical rel) s p)
  else if aeqb l "C" then do_loop fuel (step3 cubic rel) s p
  else if aeqb l "Q" then do_loop fuel (step2 quad rel) s p
  else if aeqb l "S" then do_loop fuel (step2 smooth_cubic rel) s p
  else while_loop fuel (stepa rel) s p.
(** The command loop, path.py:105-115: it returns quietly where no command can be read. *)
Fixpoint commands (fuel : nat) (s : lex) (p : path) : outcome :=
  match fuel with
  | O => OutOfFuel
  | S n =>
      match lex_command s with
      | None => Fin s p
      | Some (c, s1) =>
          match run n c s1 p with
          | Fin s2 q => commands n s2 q
          | o => o
          end
      end
  end.
Definition fuel_for (s : text) : nat := S (S (List.length s)).
(** Path.parse / Path(text), path.py:1978-1980, 2306-2309: the segments drawn and the exception, if any. *)
Definition parse (s : text) (p : path) : path * option exn :=
  match commands (fuel_for s) (mkLex s false) p with
  | Fin _ q => (q, None)
  | Exc e q => (q, Some e)
  | OutOfFuel => (p, Some Unmodelled)
  end.
