(** Matrix.parse of svgio/basic.py:2066-2165: transform text to matrix. *)
Require Import ZArith QArith Qreals Reals Ascii String List Bool.
Require Import Verif.Base Verif.Length_Model Verif.Angle_Model Verif.Point_Model Verif.Matrix_Model.
Import ListNotations.
Open Scope R_scope.

(** The text after the prefix [p], if [s] starts with it. *)
Fixpoint after (p s : text) : option text :=
  match p, s with
  | [], _ => Some s
  | x :: p', y :: s' => if aeqb x y then after p' s' else None
  | _, [] => None
  end.

(** PATTERN_TRANSFORM, constants.py:127-149, in the order of the alternation. *)
Definition t_names : list text :=
  [T "matrix"; T "translate"; T "translatex"; T "translatey"; T "scale"; T "scalex"; T "scaley";
   T "rotate"; T "skew"; T "skewx"; T "skewy"].
Definition not_close (c : ascii) : bool := negb (aeqb c ")").
(** One alternative of REGEX_TRANSFORM_TEMPLATE at the start of [s], constants.py:159-161: the name,
    white space, "(", at least one character other than ")", ")". Gives the arguments and the rest. *)
Definition match_name (nm s : text) : option (text * text) :=
  match after nm s with
  | None => None
  | Some r =>
      match drop_ws r with
      | c :: r1 =>
          if aeqb c "(" then
            match span not_close r1 with
            | ([], _) => None
            | (args, _ :: rest) => Some (args, rest)
            | (_, []) => None
            end
          else None
      | [] => None
      end
  end.
Fixpoint match_names (nms : list text) (s : text) : option (text * text * text) :=
  match nms with
  | [] => None
  | nm :: nms' =>
      match match_name nm s with
      | Some (args, rest) => Some (nm, args, rest)
      | None => match_names nms' s
      end
  end.
(** REGEX_TRANSFORM_TEMPLATE.findall: scan left to right; after a match continue behind it ([skip]
    characters of the text still belong to the last match). *)
Fixpoint find_funcs (skip : nat) (s : text) : list (text * text) :=
  match s with
  | [] => []
  | _ :: s' =>
      match skip with
      | S k => find_funcs k s'
      | O =>
          match match_names t_names s with
          | Some (nm, args, rest) => (nm, args) :: find_funcs (List.length s' - List.length rest) s'
          | None => find_funcs 0 s'
          end
      end
  end.

(** PATTERN_TRANSFORM_UNITS, constants.py:150-152, in the order of the alternation. *)
Definition t_units : list text :=
  [T "cm"; T "mm"; T "Q"; T "in"; T "pt"; T "pc"; T "px"; T "em"; T "cx"; T "ch"; T "rem"; T "vw"; T "vh";
   T "vmin"; T "vmax"; T "deg"; T "grad"; T "rad"; T "turn"; T "%"].
Fixpoint match_unit (us : list text) (s : text) : text * text :=
  match us with
  | [] => ([], s)
  | u :: us' => match after u s with Some r => (u, r) | None => match_unit us' s end
  end.
(** REGEX_TRANSFORM_PARAMETER at the start of [s], constants.py:162-164; the result is mag + units. *)
Definition match_param (s : text) : option (text * text) :=
  match match_float s with
  | None => None
  | Some (_, r) =>
      let mag := firstn (List.length s - List.length r) s in
      let '(u, r') := match_unit t_units (drop_ws r) in
      Some (mag ++ u, r')
  end.
(** REGEX_TRANSFORM_PARAMETER.findall and the list comprehension, basic.py:2087-2088. *)
Fixpoint find_params (skip : nat) (s : text) : list text :=
  match s with
  | [] => []
  | _ :: s' =>
      match skip with
      | S k => find_params k s'
      | O =>
          match match_param s with
          | Some (p, rest) => p :: find_params (List.length s' - List.length rest) s'
          | None => find_params 0 s'
          end
      end
  end.

Definition no_ctx : ctx := mkCtx None None None None None.
(** Length(param).value(): a number for px, pt, pc and unit-less parameters. A parameter that needs
    a ppi or a viewport stays a Length inside the matrix; that is outside the model. *)
Definition px_param (p : text) : Res R :=
  do v <- value no_ctx (len_of_text p);
  match v with VNum q => Ok (Q2R q) | VLen _ => Err Unmodelled end.
Definition num_param (p : text) : Res R := rmap Q2R (py_float p).
Fixpoint mapM {A B} (f : A -> Res B) (l : list A) : Res (list B) :=
  match l with
  | [] => Ok []
  | x :: l' => do y <- f x; do ys <- mapM f l'; Ok (y :: ys)
  end.

(** The two optional centre parameters of rotate and skew. *)
Definition centre (ps : list text) : Res (option R * option R) :=
  match ps with
  | [] => Ok (None, None)
  | [x] => do x <- px_param x; Ok (Some x, None)
  | x :: y :: _ => do x <- px_param x; do y <- px_param y; Ok (Some x, Some y)
  end.

(** The loop body, basic.py:2085-2164. *)
Definition apply_func (m : mx) (nm : text) (ps : list text) : Res mx :=
  if teqb nm (T "matrix") then
    do l <- mapM num_param ps; do k <- mx_of l; Ok (pre_cat m k)
  else if teqb nm (T "translate") then
    match ps with
    | [] => Ok m
    | [x] => do x <- px_param x; Ok (pre_translate m x 0)
    | x :: y :: _ => do x <- px_param x; do y <- px_param y; Ok (pre_translate m x y)
    end
  else if teqb nm (T "translatex") then
    match ps with [] => Err IndexError | x :: _ => do x <- px_param x; Ok (pre_translate m x 0) end
  else if teqb nm (T "translatey") then
    match ps with [] => Err IndexError | y :: _ => do y <- px_param y; Ok (pre_translate m 0 y) end
  else if teqb nm (T "scale") then
    do l <- mapM num_param ps;
    match l with
    | [] => Ok (pre_scale m 1 None None None)
    | [sx] => Ok (pre_scale m sx None None None)
    | [sx; sy] => Ok (pre_scale m sx (Some sy) None None)
    | [sx; sy; x] => Ok (pre_scale m sx (Some sy) (Some x) None)
    | [sx; sy; x; y] => Ok (pre_scale m sx (Some sy) (Some x) (Some y))
    | _ => Err TypeError
    end
  else if teqb nm (T "scalex") then
    match ps with [] => Err IndexError | x :: _ => do x <- num_param x; Ok (pre_scale m x (Some 1) None None) end
  else if teqb nm (T "scaley") then
    match ps with [] => Err IndexError | y :: _ => do y <- num_param y; Ok (pre_scale m 1 (Some y) None None) end
  else if teqb nm (T "rotate") then
    match ps with
    | [] => Err IndexError
    | a :: ps' => do a <- angle_parse a; do (x, y) <- centre ps'; Ok (pre_rotate m a x y)
    end
  else if teqb nm (T "skew") then
    match ps with
    | [] => Err IndexError
    | [a] => do a <- angle_parse a; Ok m
    | a :: b :: ps' => do a <- angle_parse a; do b <- angle_parse b; do (x, y) <- centre ps'; Ok (pre_skew m a b x y)
    end
  else if teqb nm (T "skewx") then
    match ps with
    | [] => Err IndexError
    | a :: ps' => do a <- angle_parse a; do (x, y) <- centre ps'; Ok (pre_skew_x m a x y)
    end
  else if teqb nm (T "skewy") then
    match ps with
    | [] => Err IndexError
    | b :: ps' => do b <- angle_parse b; do (x, y) <- centre ps'; Ok (pre_skew_y m b x y)
    end
  else Ok m.

(** The for loop of parse, basic.py:2084-2165. *)
Fixpoint apply_funcs (m : mx) (l : list (text * text)) : Res mx :=
  match l with
  | [] => Ok m
  | (nm, args) :: l' => do m' <- apply_func m nm (find_params 0 args); apply_funcs m' l'
  end.
Definition mx_parse (m : mx) (s : text) : Res mx := apply_funcs m (find_funcs 0 (lower s)).
(** Matrix(text), basic.py:1936-1939. *)
Definition mx_of_text (s : text) : Res mx := mx_parse ident s.
