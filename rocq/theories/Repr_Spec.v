(** A fragment of Python's expressions, read from text: decimal numbers without exponent, strings in single quotes without
    escapes, None, and calls of named functions with positional and keyword arguments. Text outside the fragment is [None]; all
    other juxtapositions of these tokens are syntax errors in Python as well. *)
Require Import ZArith QArith List Ascii String Bool.
Require Import Verif.Base.
Import ListNotations.
Open Scope Z_scope.

Inductive expr :=
| ENum (q : Q)
| EStr (t : text)
| ENone
| ECall (f : text) (args : list (option text * expr)).  (** each argument with its keyword, if any *)

(** ** Tokens *)
Inductive tok := KName (t : text) | KNum (q : Q) | KStr (t : text) | KSym (c : ascii).
Definition between (a b c : ascii) : bool := (Nat.leb (nat_of_ascii a) (nat_of_ascii c)) && (Nat.leb (nat_of_ascii c) (nat_of_ascii b)).
Definition digitc (c : ascii) : bool := between "0" "9" c.
Definition letterc (c : ascii) : bool := between "a" "z" c || between "A" "Z" c || Ascii.eqb c "_".
Definition symc (c : ascii) : bool := existsb (Ascii.eqb c) ["("; ")"; ","; "="; "-"]%char.
(** Value of a run of digits. *)
Fixpoint zval (acc : Z) (t : text) : Z := match t with [] => acc | c :: r => zval (10 * acc + (Z.of_nat (nat_of_ascii c) - 48)) r end.
Fixpoint split_dot (t : text) : text * option text :=
  match t with
  | [] => ([], None)
  | c :: r => if Ascii.eqb c "." then ([], Some r) else let '(i, f) := split_dot r in (c :: i, f)
  end.
(** An integer has no superfluous leading zeros; a number with a point may. *)
Definition number (t : text) : option Q :=
  match split_dot t with
  | (i, None) =>
      if forallb digitc i && match i with [] => false | c :: r => negb (Ascii.eqb c "0") || match r with [] => true | _ => false end end
      then Some (inject_Z (zval 0 i)) else None
  | (i, Some f) =>
      if forallb digitc i && forallb digitc f && negb (Nat.eqb (List.length i + List.length f) 0)
      then Some (Qmake (zval 0 (i ++ f)) 1 / inject_Z (10 ^ Z.of_nat (List.length f)))%Q else None
  end.
(** The token being read. *)
Inductive cur := Idle | InName (t : text) | InNum (t : text) | InStr (t : text).
Definition lexer : Type := list tok * cur.
(** The first character of a token, after the tokens [k]. *)
Definition begin_tok (k : list tok) (c : ascii) : option lexer :=
  if Ascii.eqb c " " then Some (k, Idle)
  else if letterc c then Some (k, InName [c])
  else if digitc c || Ascii.eqb c "." then Some (k, InNum [c])
  else if Ascii.eqb c "'" then Some (k, InStr [])
  else if symc c then Some (k ++ [KSym c], Idle)
  else None.
Definition lex_char (s : option lexer) (c : ascii) : option lexer :=
  match s with
  | None => None
  | Some (k, Idle) => begin_tok k c
  | Some (k, InName t) => if letterc c || digitc c then Some (k, InName (t ++ [c])) else begin_tok (k ++ [KName t]) c
  | Some (k, InNum t) =>
      if letterc c || digitc c || Ascii.eqb c "." then Some (k, InNum (t ++ [c]))
      else match number t with Some q => begin_tok (k ++ [KNum q]) c | None => None end
  | Some (k, InStr t) =>
      if Ascii.eqb c "'" then Some (k ++ [KStr t], Idle)
      else if Ascii.eqb c "\" || Ascii.eqb c "010" then None else Some (k, InStr (t ++ [c]))
  end.
Definition tokens (t : text) : option (list tok) :=
  match fold_left lex_char t (Some ([], Idle)) with
  | Some (k, Idle) => Some k
  | Some (k, InName t) => Some (k ++ [KName t])
  | Some (k, InNum t) => match number t with Some q => Some (k ++ [KNum q]) | None => None end
  | _ => None
  end.

(** ** Calls *)
(** A call being read: its name, the arguments so far, the keyword of the argument being read. *)
Record call := mkCall { c_name : text; c_args : list (option text * expr); c_key : option text }.
Inductive mode := Operand (closing : bool)  (** an operand, or if [closing] also the end of the call, is expected *)
| Minus | Name (t : text) | Have (e : expr).
Definition reader : Type := list call * mode.
Definition keyed (a : option text * expr) : bool := match fst a with Some _ => true | None => false end.
(** Positional arguments come first; no keyword comes twice. *)
Definition add_arg (c : call) (e : expr) : option call :=
  match c_key c with
  | None => if existsb keyed (c_args c) then None else Some (mkCall (c_name c) (c_args c ++ [(None, e)]) None)
  | Some k => if existsb (fun a => match fst a with Some n => teqb n k | None => false end) (c_args c) then None
              else Some (mkCall (c_name c) (c_args c ++ [(Some k, e)]) None)
  end.
Definition finish (c : call) : mode := Have (ECall (c_name c) (c_args c)).
Definition read_tok (s : option reader) (t : tok) : option reader :=
  match s with
  | None => None
  | Some (st, Operand closing) =>
      match t with
      | KNum q => Some (st, Have (ENum q))
      | KStr x => Some (st, Have (EStr x))
      | KName n => if teqb n (T "None") then Some (st, Have ENone) else Some (st, Name n)
      | KSym c =>
          if Ascii.eqb c "-" then Some (st, Minus)
          else if Ascii.eqb c ")" && closing then match st with f :: st' => Some (st', finish f) | [] => None end
          else None
      end
  | Some (st, Minus) => match t with KNum q => Some (st, Have (ENum (- q))) | _ => None end
  | Some (st, Name n) =>
      match t with
      | KSym c =>
          if Ascii.eqb c "(" then Some (mkCall n [] None :: st, Operand true)
          else if Ascii.eqb c "=" then
            match st with
            | f :: st' => match c_key f with None => Some (mkCall (c_name f) (c_args f) (Some n) :: st', Operand false) | Some _ => None end
            | [] => None
            end
          else None
      | _ => None
      end
  | Some (st, Have e) =>
      match t, st with
      | KSym c, f :: st' =>
          match add_arg f e with
          | None => None
          | Some f' => if Ascii.eqb c "," then Some (f' :: st', Operand true) else if Ascii.eqb c ")" then Some (st', finish f') else None
          end
      | _, _ => None
      end
  end.
(** The expression a text is. *)
Definition python (t : text) : option expr :=
  match tokens t with
  | Some k => match fold_left read_tok k (Some ([], Operand false)) with Some ([], Have e) => Some e | _ => None end
  | None => None
  end.

Example python_ex : python (T "f(1, -2.50,x='a b', y=g(None,))") =
  Some (ECall (T "f") [(None, ENum 1); (None, ENum (-(250 / 100))); (Some (T "x"), EStr (T "a b")); (Some (T "y"), ECall (T "g") [(None, ENone)])]).
Proof. reflexivity. Qed.
Example python_not : python (T "f(x=1, 2)") = None /\ python (T "f(5cm)") = None /\ python (T "Path(M 0,0)") = None /\ python (T "f(01)") = None /\ python (T "f(1))") = None.
Proof. repeat split. Qed.
