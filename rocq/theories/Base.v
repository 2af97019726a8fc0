(** Shared vocabulary: results with Python exceptions, text, decimal numbers, rounding.
    Nothing here is specific to one class of /repo; the functions model the Python built-ins the
    code calls (int, float, round, str.lower, ...). *)
Require Import ZArith QArith Qround List Ascii String Bool Lia.
Import ListNotations.
Open Scope Z_scope.

(** Python exceptions the modelled code can raise. *)
Inductive exn : Set :=
| ValueError | TypeError | AttributeError | ZeroDivisionError | IndexError
| KeyError | RecursionError | NameError | OverflowError
(** Not a Python exception: the run leaves what is modelled (each use says how). No theorem claims
    anything about such runs. *)
| Unmodelled.

(** Result of running Python code that returns a value or raises. *)
Inductive Res (A : Type) : Type :=
| Ok (a : A)
| Err (e : exn).
Arguments Ok {A} a.
Arguments Err {A} e.

Definition rbind {A B} (r : Res A) (f : A -> Res B) : Res B :=
  match r with Ok a => f a | Err e => Err e end.
Notation "'do' x <- e ; f" := (rbind e (fun x => f)) (at level 200, x pattern, e at level 100, f at level 200).

Definition rmap {A B} (f : A -> B) (r : Res A) : Res B :=
  match r with Ok a => Ok (f a) | Err e => Err e end.

(** Text: a Python str restricted to code points 0..255. *)
Definition text : Type := list ascii.
Definition T (s : string) : text := list_ascii_of_string s.

Definition code (c : ascii) : Z := Z.of_N (N_of_ascii c).
Definition chr (n : Z) : ascii := ascii_of_N (Z.to_N n).

Definition aeqb (a b : ascii) : bool := Ascii.eqb a b.

Fixpoint teqb (a b : text) : bool :=
  match a, b with
  | [], [] => true
  | x :: a', y :: b' => aeqb x y && teqb a' b'
  | _, _ => false
  end.

(** Character classes. *)
Definition is_digit (c : ascii) : bool := (48 <=? code c) && (code c <=? 57).
Definition is_hex (c : ascii) : bool :=
  is_digit c || ((65 <=? code c) && (code c <=? 70)) || ((97 <=? code c) && (code c <=? 102)).
(** Python's [\s] and str.isspace on code points 0..255. *)
Definition is_ws (c : ascii) : bool :=
  ((9 <=? code c) && (code c <=? 13)) || ((28 <=? code c) && (code c <=? 32))
  || (code c =? 133) || (code c =? 160).
Definition is_upper (c : ascii) : bool := (65 <=? code c) && (code c <=? 90).
Definition is_lower (c : ascii) : bool := (97 <=? code c) && (code c <=? 122).
Definition is_alpha (c : ascii) : bool := is_upper c || is_lower c.

(** str.lower on one character (ASCII letters only; Latin-1 letters are left unchanged). *)
Definition lower1 (c : ascii) : ascii := if is_upper c then chr (code c + 32) else c.
Definition lower (s : text) : text := map lower1 s.

(** str.replace(c, "") for a one-character pattern. *)
Definition remove_char (c : ascii) (s : text) : text := filter (fun x => negb (aeqb x c)) s.

(** str.lstrip(c) / str.rstrip(c) for a one-character set. *)
Fixpoint lstrip1 (c : ascii) (s : text) : text :=
  match s with
  | x :: s' => if aeqb x c then lstrip1 c s' else s
  | [] => []
  end.
Definition rstrip1 (c : ascii) (s : text) : text := rev (lstrip1 c (rev s)).

Fixpoint drop_ws (s : text) : text :=
  match s with
  | x :: s' => if is_ws x then drop_ws s' else s
  | [] => []
  end.
(** str.strip() *)
Definition strip_ws (s : text) : text := rev (drop_ws (rev (drop_ws s))).

(** Longest prefix of characters satisfying [p], and the rest. *)
Fixpoint span (p : ascii -> bool) (s : text) : text * text :=
  match s with
  | x :: s' => if p x then let '(a, b) := span p s' in (x :: a, b) else ([], s)
  | [] => ([], [])
  end.

(** Digits. *)
Definition digit_val (c : ascii) : Z := code c - 48.
Definition hex_val (c : ascii) : Z :=
  if is_digit c then code c - 48
  else if (65 <=? code c) && (code c <=? 70) then code c - 55
  else code c - 87.
Definition num_of_digits (s : text) : Z := fold_left (fun a c => 10 * a + digit_val c) s 0.
Definition num_of_hex (s : text) : Z := fold_left (fun a c => 16 * a + hex_val c) s 0.

(** int(s, 16), for text that can only hold hex digits and white space
    (sign, 0x prefix and underscores are not modelled: they cannot reach the calls modelled). *)
Definition py_int16 (s : text) : Res Z :=
  let s := strip_ws s in
  match s with
  | [] => Err ValueError
  | _ => if forallb is_hex s then Ok (num_of_hex s) else Err ValueError
  end.

(** int(s): optional sign, digits, single underscores between digits, surrounding white space. *)
Fixpoint digits_us (s : text) (acc : Z) (after_digit : bool) : option Z :=
  match s with
  | [] => if after_digit then Some acc else None
  | c :: s' =>
      if is_digit c then digits_us s' (10 * acc + digit_val c) true
      else if aeqb c "_" then (if after_digit then digits_us s' acc false else None)
      else None
  end.
Definition py_int10 (s : text) : Res Z :=
  let s := strip_ws s in
  let '(neg, body) := match s with
    | c :: r => if aeqb c "-" then (true, r) else if aeqb c "+" then (false, r) else (false, s)
    | [] => (false, [])
    end in
  match digits_us body 0 false with
  | Some n => Ok (if neg then - n else n)
  | None => Err ValueError
  end.

(** PATTERN_FLOAT of svgio/constants.py:120,
    [-+]?[0-9]*\.?[0-9]+(?:[eE][-+]?[0-9]+)?
    as the decomposed number and the remaining text. The greedy backtracking match is unique:
    digits, then a point only if a digit follows it, then an exponent only if complete. *)
Record fnum : Type := mkF { f_neg : bool; f_int : text; f_frac : text; f_exp : option (bool * text) }.

Definition opt_sign (s : text) : bool * bool * text := (* sign present?, negative?, rest *)
  match s with
  | c :: r => if aeqb c "-" then (true, true, r) else if aeqb c "+" then (true, false, r) else (false, false, s)
  | [] => (false, false, [])
  end.

Definition match_exp (s : text) : option (bool * text) * text :=
  match s with
  | c :: r =>
      if aeqb c "e" || aeqb c "E" then
        let '(_, neg, r1) := opt_sign r in
        let '(ds, r2) := span is_digit r1 in
        match ds with [] => (None, s) | _ => (Some (neg, ds), r2) end
      else (None, s)
  | [] => (None, [])
  end.

(** The optional fraction: a point counts only if a digit follows. *)
Definition match_frac (s : text) : text * text :=
  match s with
  | c :: r =>
      if aeqb c "." then
        match span is_digit r with
        | ([], _) => ([], s)
        | (ds, r') => (ds, r')
        end
      else ([], s)
  | [] => ([], [])
  end.

Definition match_float (s : text) : option (fnum * text) :=
  let '(_, neg, r0) := opt_sign s in
  let '(ints, r1) := span is_digit r0 in
  let '(fr, r2) := match_frac r1 in
  match ints, fr with
  | [], [] => None
  | _, _ => let '(ex, r3) := match_exp r2 in Some (mkF neg ints fr ex, r3)
  end.

(** Powers of ten as rationals. *)
Definition ten_pow (e : Z) : Q :=
  match e with
  | Z0 => 1
  | Zpos p => inject_Z (10 ^ Zpos p)
  | Zneg p => / inject_Z (10 ^ Zpos p)
  end%Q.

(** float(s) of a matched number, exactly (no binary rounding, no overflow). *)
Definition fnum_val (f : fnum) : Q :=
  let m := num_of_digits (f_int f ++ f_frac f) in
  let e := match f_exp f with
           | None => 0
           | Some (neg, ds) => if neg then - num_of_digits ds else num_of_digits ds
           end in
  let v := (inject_Z m * ten_pow (e - Z.of_nat (List.length (f_frac f))))%Q in
  if f_neg f then (- v)%Q else v.

(** float(s) for a whole string that is exactly one PATTERN_FLOAT. *)
Definition py_float (s : text) : Res Q :=
  match match_float s with
  | Some (f, []) => Ok (fnum_val f)
  | _ => Err ValueError
  end.

(** int(v) on a number: truncation towards zero. *)
Definition Qtrunc (q : Q) : Z := if Qle_bool 0 q then Qfloor q else Qceiling q.

(** round(v): nearest integer, ties to even. *)
Definition Qround_even (q : Q) : Z :=
  let f := Qfloor q in
  let d := (q - inject_Z f)%Q in
  match Qcompare d (1#2) with
  | Lt => f
  | Gt => f + 1
  | Eq => if Z.even f then f else f + 1
  end.

Definition Qltb (a b : Q) : bool := negb (Qle_bool b a).
