(** The code of /repo that applies the patterns of constants.py, written with the patterns. The other
    models use scanners written by hand in these places; RegexUse_Thms shows that they agree. *)
Require Import ZArith QArith Qcanon Arith Ascii String List Bool.
Require Import Verif.Base Verif.Regex_Model.
Import ListNotations.
Local Open Scope nat_scope.

(** Length.__init__ with one argument that is not None, basic.py:54-64: amount and units. *)
Definition length_by_pattern (s : text) : Res (Q * text) :=
  match findall (the REGEX_LENGTH) 0 0 s with
  | m :: _ => do a <- py_float (group0 1 m); Ok (a, group0 2 m)
  | [] => Ok (0%Q, [])
  end.
Fixpoint floats (l : list text) : Res (list Q) :=
  match l with [] => Ok [] | t :: l' => do q <- py_float t; do qs <- floats l'; Ok (q :: qs) end.
(** list(REGEX_FLOAT.findall(viewbox)) and float of each, basic.py:2564-2568. *)
Definition floats_by_pattern (s : text) : Res (list Q) := floats (map (group0 0) (findall (the REGEX_FLOAT) 0 0 s)).
(** Point(text), basic.py:1452-1454. *)
Definition point_by_pattern (s : text) : Res (Q * Q) :=
  match findall (the REGEX_COORD_PAIR) 0 0 s with
  | m :: _ => do x <- py_float (group0 1 m); do y <- py_float (group0 2 m); Ok (x, y)
  | [] => Err IndexError
  end.
(** The functions of a transform, basic.py:2085-2086: name and arguments. *)
Definition funcs_by_pattern (s : text) : list (text * text) :=
  map (fun m => (group0 1 m, group0 2 m)) (findall (the REGEX_TRANSFORM_TEMPLATE) 0 0 s).
(** The parameters of a function, basic.py:2087-2088. *)
Definition params_by_pattern (s : text) : list text :=
  map (fun m => group0 1 m ++ group0 2 m) (findall (the REGEX_TRANSFORM_PARAMETER) 0 0 s).
(** match.groups() of a colour, basic.py:664-675. *)
Definition groups_by_pattern (pattern : string) (s : text) : option (option text * option text * option text * option text) :=
  match match_at (the pattern) 0 s with
  | Some (m, _) => Some (group 1 m, group 2 m, group 3 m, group 4 m)
  | None => None
  end.
(** The first id of a url, nodes.py:448-450. *)
Definition id_by_pattern (s : text) : option text :=
  match findall (the REGEX_IRI) 0 0 s with m :: _ => Some (group0 1 m) | [] => None end.

(** _command, path.py:30-40: the position is given by the text that is left. The loop ends because
    every round reads something. *)
Fixpoint command_loop (fuel : nat) (s : text) : option text * text :=
  match fuel with
  | O => (None, s)
  | S n =>
      match s with
      | [] => (None, s)
      | _ =>
          match match_at (the svg_re) 0 s with
          | None => (None, s)
          | Some (m, r) => match group 2 m with
                           | Some _ => command_loop n r
                           | None => (group 0 m, r)
                           end
          end
      end
  end.
(** _number, path.py:58-73: the number, the text that is left, and whether a z was seen. *)
Fixpoint number_loop (fuel : nat) (s : text) : option text * text * bool :=
  match fuel with
  | O => (None, s, false)
  | S n =>
      match s with
      | [] => (None, s, false)
      | _ =>
          match match_at (the num_re) 0 s with
          | None => (None, s, false)
          | Some (m, r) =>
              match group 2 m with
              | Some _ => (None, s, true)
              | None => match group 3 m with
                        | Some _ => number_loop n r
                        | None => (group 0 m, r, false)
                        end
              end
          end
      end
  end.
(** _more, path.py:42-56. *)
Fixpoint more_loop (fuel : nat) (s : text) : bool * text * bool :=
  match fuel with
  | O => (false, s, false)
  | S n =>
      match s with
      | [] => (false, s, false)
      | _ =>
          match match_at (the num_re) 0 s with
          | None => (false, s, false)
          | Some (m, r) =>
              match group 2 m with
              | Some _ => (false, s, true)
              | None => match group 3 m with
                        | Some _ => more_loop n r
                        | None => (true, s, false)
                        end
              end
          end
      end
  end.
(** _flag, path.py:75-85. *)
Fixpoint flag_loop (fuel : nat) (s : text) : option text * text :=
  match fuel with
  | O => (None, s)
  | S n =>
      match s with
      | [] => (None, s)
      | _ =>
          match match_at (the flag_re) 0 s with
          | None => (None, s)
          | Some (m, r) => match group 2 m with
                           | Some _ => flag_loop n r
                           | None => (group 0 m, r)
                           end
          end
      end
  end.
