(** Python's re module for the constructs that the patterns of svgio/constants.py:117-189 use, and
    these patterns themselves. The patterns are the character strings of the source: [compile] reads
    their syntax and [run] gives their meaning, so that the scanners of the other models can be
    compared with them (Regex_Thms). *)
Require Import ZArith Arith Ascii String List Bool.
Require Import Verif.Base.
Import ListNotations.
Local Open Scope nat_scope.

(** A set of characters: single ones, ranges, [\s] and [\d]; [neg] for [^...]. On code points 0..255
    [\d] is 0-9. *)
Inductive citem := IChar (c : ascii) | IRange (a b : ascii) | ISpace | IDigit.
Record cset := mkSet { neg : bool; items : list citem }.
Definition item_has (c : ascii) (i : citem) : bool :=
  match i with
  | IChar x => aeqb c x
  | IRange a b => (nat_of_ascii a <=? nat_of_ascii c) && (nat_of_ascii c <=? nat_of_ascii b)
  | ISpace => is_ws c
  | IDigit => is_digit c
  end.
Definition set_has (s : cset) (c : ascii) : bool := xorb (neg s) (existsb (item_has c) (items s)).

(** Regular expressions: nothing, one character of a set, sequence, ordered choice, greedy
    repetition, numbered group, look-ahead, ^ and $ (without flags). *)
Inductive re :=
| REmpty
| RSet (s : cset)
| RCat (a b : re)
| RAlt (a b : re)
| RStar (a : re)
| RGroup (k : nat) (a : re)
| RLook (a : re)
| RBegin
| REnd.
Definition opt (a : re) : re := RAlt a REmpty.
Definition cat (a b : re) : re := match b with REmpty => a | _ => RCat a b end.
Fixpoint times (n : nat) (a b : re) : re := match n with O => b | S m => cat a (times m a b) end.
Fixpoint up_to (n : nat) (a : re) : re := match n with O => REmpty | S m => opt (cat a (up_to m a)) end.

(** * The syntax of patterns *)
Definition dot : cset := mkSet true [IChar "010"%char].
Definition hexv (c : ascii) : nat := Z.to_nat (hex_val c).
Fixpoint begins (p s : text) : bool :=
  match p, s with
  | [], _ => true
  | x :: p', y :: s' => aeqb x y && begins p' s'
  | _ :: _, [] => false
  end.
(** One escape; the backslash has been read. *)
Definition escape (s : text) : option (citem * text) :=
  match s with
  | c :: r =>
      if aeqb c "s" then Some (ISpace, r)
      else if aeqb c "d" then Some (IDigit, r)
      else if aeqb c "t" then Some (IChar "009"%char, r)
      else if aeqb c "n" then Some (IChar "010"%char, r)
      else if aeqb c "x" then
        match r with a :: b :: r' => Some (IChar (ascii_of_nat (16 * hexv a + hexv b)), r') | _ => None end
      else if is_alpha c || is_digit c then None
      else Some (IChar c, r)
  | [] => None
  end.
(** The inside of [...], up to and with the bracket. *)
Fixpoint set_items (fuel : nat) (s : text) : option (list citem * text) :=
  match fuel with
  | O => None
  | S n =>
      match s with
      | [] => None
      | c :: r =>
          if aeqb c "]" then Some ([], r)
          else if aeqb c "\" then
            match escape r with
            | Some (i, r1) => match set_items n r1 with Some (l, r2) => Some (i :: l, r2) | None => None end
            | None => None
            end
          else match r with
               | h :: d :: r1 =>
                   if aeqb h "-" && negb (aeqb d "]") then
                     match set_items n r1 with Some (l, r2) => Some (IRange c d :: l, r2) | None => None end
                   else match set_items n r with Some (l, r2) => Some (IChar c :: l, r2) | None => None end
               | _ => match set_items n r with Some (l, r2) => Some (IChar c :: l, r2) | None => None end
               end
      end
  end.
Definition char_set (s : text) : option (cset * text) :=
  let n := S (List.length s) in
  match s with
  | c :: r =>
      if aeqb c "^" then match set_items n r with Some (l, r') => Some (mkSet true l, r') | None => None end
      else match set_items n s with Some (l, r') => Some (mkSet false l, r') | None => None end
  | [] => None
  end.
Definition nat_of_digits (s : text) : nat := Z.to_nat (num_of_digits s).
(** What may follow an atom: * + ? or a count {n} or {n,m}. *)
Definition quantify (a : re) (s : text) : re * text :=
  match s with
  | c :: r =>
      if aeqb c "*" then (RStar a, r)
      else if aeqb c "+" then (RCat a (RStar a), r)
      else if aeqb c "?" then (opt a, r)
      else if aeqb c "{" then
        let '(n, r1) := span is_digit r in
        match r1 with
        | d :: r2 =>
            if aeqb d "}" then (times (nat_of_digits n) a REmpty, r2)
            else let '(m, r3) := span is_digit r2 in
                 (times (nat_of_digits n) a (up_to (nat_of_digits m - nat_of_digits n) a), skipn 1 r3)
        | [] => (a, s)
        end
      else (a, s)
  | [] => (a, [])
  end.
Definition closing (s : text) : option text :=
  match s with c :: r => if aeqb c ")" then Some r else None | [] => None end.
Definition is_in (c : ascii) (s : string) : bool := existsb (aeqb c) (T s).
(** [k] is the number of the next group. *)
Fixpoint p_alt (fuel k : nat) (s : text) : option (re * nat * text) :=
  match fuel with
  | O => None
  | S n =>
      match p_seq n k s with
      | Some (a, k1, c :: r) =>
          if aeqb c "|" then
            match p_alt n k1 r with Some (b, k2, r2) => Some (RAlt a b, k2, r2) | None => None end
          else Some (a, k1, c :: r)
      | o => o
      end
  end
with p_seq (fuel k : nat) (s : text) : option (re * nat * text) :=
  match fuel with
  | O => None
  | S n =>
      match s with
      | [] => Some (REmpty, k, [])
      | c :: _ =>
          if is_in c "|)" then Some (REmpty, k, s)
          else match p_atom n k s with
               | Some (a, k1, r) =>
                   let '(a', r1) := quantify a r in
                   match p_seq n k1 r1 with Some (b, k2, r2) => Some (cat a' b, k2, r2) | None => None end
               | None => None
               end
      end
  end
with p_atom (fuel k : nat) (s : text) : option (re * nat * text) :=
  match fuel with
  | O => None
  | S n =>
      let inside (f : re -> re) (k : nat) (r : text) :=
        match p_alt n k r with
        | Some (a, k1, r1) => match closing r1 with Some r2 => Some (f a, k1, r2) | None => None end
        | None => None
        end in
      match s with
      | [] => None
      | c :: r =>
          if aeqb c "(" then
            if begins (T "?:") r then inside (fun a => a) k (skipn 2 r)
            else if begins (T "?=") r then inside RLook k (skipn 2 r)
            else if begins (T "?u)") r then Some (REmpty, k, skipn 3 r)
            else if begins (T "?P<") r then
              inside (RGroup k) (S k) (skipn 1 (snd (span (fun x => negb (aeqb x ">")) r)))
            else inside (RGroup k) (S k) r
          else if aeqb c "[" then
            match char_set r with Some (cs, r1) => Some (RSet cs, k, r1) | None => None end
          else if aeqb c "\" then
            match escape r with Some (i, r1) => Some (RSet (mkSet false [i]), k, r1) | None => None end
          else if aeqb c "." then Some (RSet dot, k, r)
          else if aeqb c "^" then Some (RBegin, k, r)
          else if aeqb c "$" then Some (REnd, k, r)
          else if is_in c "*+?{" then None
          else Some (RSet (mkSet false [IChar c]), k, r)
      end
  end.
(** re.compile: None for what is not understood. *)
Definition compile (s : text) : option re :=
  match p_alt (4 * List.length s + 4) 1 s with Some (a, _, []) => Some a | _ => None end.

(** * Matching *)
(** How many characters have been read, the text not yet read, the groups, the last one first. *)
Record st := mkSt { pos : nat; rest : text; caps : list (nat * text) }.
Definition adv (k : nat) (s : st) : st := mkSt (pos s + k) (skipn k (rest s)) (caps s).
(** All ways to match, in the order in which the backtracking of Python's re tries them. A round of *
    that reads nothing is not taken (none of the patterns repeats something that may be empty). *)
Fixpoint run (r : re) (s : st) : list st :=
  match r with
  | REmpty => [s]
  | RSet cs => match rest s with c :: _ => if set_has cs c then [adv 1 s] else [] | [] => [] end
  | RCat a b => flat_map (run b) (run a s)
  | RAlt a b => run a s ++ run b s
  | RStar a =>
      (fix loop (n : nat) (s : st) : list st :=
         match n with
         | O => [s]
         | S n' => flat_map (fun s' => if pos s' =? pos s then [] else loop n' s') (run a s) ++ [s]
         end) (List.length (rest s)) s
  | RGroup k a =>
      map (fun s' => mkSt (pos s') (rest s') ((k, firstn (pos s' - pos s) (rest s)) :: caps s')) (run a s)
  | RLook a => match run a s with s' :: _ => [mkSt (pos s) (rest s) (caps s')] | [] => [] end
  | RBegin => if pos s =? 0 then [s] else []
  | REnd => match rest s with [] => [s] | [c] => if aeqb c "010" then [s] else [] | _ => [] end
  end.
(** Pattern.match(text, p): the groups, group 0 being the whole match, and the text behind it. *)
Definition match_at (r : re) (p : nat) (s : text) : option (list (nat * text) * text) :=
  match run r (mkSt p s []) with
  | s' :: _ => Some ((0, firstn (pos s' - p) s) :: caps s', rest s')
  | [] => None
  end.
(** match.group(k) *)
Fixpoint group (k : nat) (l : list (nat * text)) : option text :=
  match l with [] => None | (j, t) :: l' => if j =? k then Some t else group k l' end.
(** The members of the result of findall: a group that took no part is empty. *)
Definition group0 (k : nat) (l : list (nat * text)) : text := match group k l with Some t => t | None => [] end.
(** Pattern.findall(text) from position [p] on: [skip] characters belong to the last match. An empty
    match at the very end of the text is not looked for (none of the patterns matches nothing). *)
Fixpoint findall (r : re) (p skip : nat) (s : text) : list (list (nat * text)) :=
  match s with
  | [] => []
  | _ :: s' =>
      match skip with
      | S k => findall r (S p) k s'
      | O =>
          match match_at r p s with
          | Some (g, t) => g :: findall r (S p) (List.length s' - List.length t) s'
          | None => findall r (S p) 0 s'
          end
      end
  end.

(** * The patterns, as in svgio/constants.py *)
Local Open Scope string_scope.
(** constants.py:117-126 *)
Definition PATTERN_WS := "[\s\t\n]*".
Definition PATTERN_COMMA := "(?:\s*,\s*|\s+|(?=-))".
Definition PATTERN_COMMAWSP := "[ ,\t\n\x09\x0A\x0C\x0D]+".
Definition PATTERN_FLOAT := "[-+]?[0-9]*\.?[0-9]+(?:[eE][-+]?[0-9]+)?".
Definition PATTERN_LENGTH_UNITS := "cm|mm|Q|in|pt|pc|px|em|cx|ch|rem|vw|vh|vmin|vmax".
Definition PATTERN_ANGLE_UNITS := "deg|grad|rad|turn".
Definition PATTERN_PERCENT := "%".
(** constants.py:100-110, 127-149 *)
Definition PATTERN_TRANSFORM :=
  "matrix" ++ "|" ++ "translate" ++ "|" ++ "translatex" ++ "|" ++ "translatey" ++ "|" ++ "scale" ++ "|" ++
  "scalex" ++ "|" ++ "scaley" ++ "|" ++ "rotate" ++ "|" ++ "skew" ++ "|" ++ "skewx" ++ "|" ++ "skewy".
(** constants.py:150-152 *)
Definition PATTERN_TRANSFORM_UNITS :=
  PATTERN_LENGTH_UNITS ++ "|" ++ PATTERN_ANGLE_UNITS ++ "|" ++ PATTERN_PERCENT.
(** constants.py:154-182; the formatting with % is done by hand. *)
Definition REGEX_IRI := "url\(#?(.*)\)".
Definition REGEX_FLOAT := PATTERN_FLOAT.
Definition REGEX_COORD_PAIR := "(" ++ PATTERN_FLOAT ++ ")" ++ PATTERN_COMMA ++ "(" ++ PATTERN_FLOAT ++ ")".
Definition REGEX_TRANSFORM_TEMPLATE := "(?u)(" ++ PATTERN_TRANSFORM ++ ")" ++ PATTERN_WS ++ "\(([^)]+)\)".
Definition REGEX_TRANSFORM_PARAMETER :=
  "(" ++ PATTERN_FLOAT ++ ")" ++ PATTERN_WS ++ "(" ++ PATTERN_TRANSFORM_UNITS ++ ")?".
Definition REGEX_COLOR_HEX := "^#?([0-9A-Fa-f]{3,8})$".
Definition REGEX_COLOR_RGB :=
  "rgba?\(\s*(" ++ PATTERN_FLOAT ++ ")\s*,\s*(" ++ PATTERN_FLOAT ++ ")\s*,\s*(" ++ PATTERN_FLOAT ++
  ")\s*(?:,\s*(" ++ PATTERN_FLOAT ++ ")\s*)?\)".
Definition REGEX_COLOR_RGB_PERCENT :=
  "rgba?\(\s*(" ++ PATTERN_FLOAT ++ ")%\s*,\s*(" ++ PATTERN_FLOAT ++ ")%\s*,\s*(" ++ PATTERN_FLOAT ++
  ")%\s*(?:,\s*(" ++ PATTERN_FLOAT ++ ")\s*)?\)".
Definition REGEX_COLOR_HSL :=
  "hsla?\(\s*(" ++ PATTERN_FLOAT ++ ")\s*,\s*(" ++ PATTERN_FLOAT ++ ")%\s*,\s*(" ++ PATTERN_FLOAT ++
  ")%\s*(?:,\s*(" ++ PATTERN_FLOAT ++ ")\s*)?\)".
Definition REGEX_LENGTH := "(" ++ PATTERN_FLOAT ++ ")([A-Za-z%]*)".
Definition REGEX_CSS_STYLE := "([^{]+)\s*\{\s*([^}]+)\s*\}".
Definition REGEX_CSS_FONT :=
  "(?:(normal|italic|oblique)\s|(normal|small-caps)\s|(normal|bold|bolder|lighter|\d{3})\s|(normal|ultra-condensed|extra-condensed|condensed|semi-condensed|semi-expanded|expanded|extra-expanded|ultra-expanded)\s)*\s*(xx-small|x-small|small|medium|large|x-large|xx-large|larger|smaller|\d+(?:em|pt|pc|px|%))(?:/(xx-small|x-small|small|medium|large|x-large|xx-large|larger|smaller|\d+(?:em|pt|pc|px|%)))?\s*(.*),?\s+(serif|sans-serif|cursive|fantasy|monospace);?".
(** constants.py:184-189 *)
Definition svg_re := "(?P<COMMAND>[MmZzLlHhVvCcSsQqTtAa])|(?P<SKIP>" ++ PATTERN_COMMAWSP ++ ")".
Definition num_re := "(?P<FLOAT>" ++ PATTERN_FLOAT ++ ")|(?P<CLOSE>[Zz])|(?P<SKIP>" ++ PATTERN_COMMAWSP ++ ")".
Definition flag_re := "(?P<FLAG>[01])|(?P<SKIP>" ++ PATTERN_COMMAWSP ++ ")".

(** A pattern that is not understood matches nothing. *)
Definition the (s : string) : re := match compile (T s) with Some r => r | None => RSet (mkSet false []) end.
