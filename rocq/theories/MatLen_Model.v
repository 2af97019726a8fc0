(** Matrices whose e and f are still Lengths, Matrix.parse with lengths and Matrix.render, svgio/basic.py:1911-2517.
    Amounts are real numbers, so that rotated lengths stay exact. *)
Require Import ZArith QArith Qreals Reals Ascii String List Bool.
Require Import Verif.Base Verif.Length_Model Verif.Angle_Model Verif.Point_Model Verif.Matrix_Model Verif.Transform_Model.
Import ListNotations.
Open Scope R_scope.

(** e and f: a number or a Length. *)
Inductive ent := EN (r : R) | EL (a : R) (u : lunit).
Record lmx := LM { la : R; lb : R; lc : R; ld : R; le : ent; lf : ent }.
(** Matrix(), basic.py:1926-1932. *)
Definition lident : lmx := LM 1 0 0 1 (EN 0) (EN 0).
(** Matrix(m) of a matrix of numbers, basic.py:1940-1946. *)
Definition lmx_num (m : mx) : lmx := LM (ma m) (mb m) (mc m) (md m) (EN (me m)) (EN (mf m)).

(** k * x, x * k for a number k; Length.__imul__ with a number, basic.py:75-78. *)
Definition ent_scale (k : R) (x : ent) : ent := match x with EN r => EN (k * r) | EL a u => EL (a * k) u end.
(** -x; Length.__neg__, basic.py:264-267. *)
Definition ent_neg (x : ent) : ent := match x with EN r => EN (- r) | EL a u => EL (- a) u end.
(** x == 0; Length.__eq__ with a number, basic.py:298-306. *)
Definition ent_zero (x : ent) : Prop :=
  match x with
  | EN r => r = 0
  | EL a u => match u with
    | UPx | UNone => Rabs a <= / 10 ^ 12
    | UPt => Rabs (a / Q2R pt_px) <= / 10 ^ 12
    | UPc => Rabs (a / 16) <= / 10 ^ 12
    | _ => a = 0
    end
  end.
Definition ent_zero_dec (x : ent) : {ent_zero x} + {~ ent_zero x}.
Proof. destruct x as [r|a u]; [apply Req_EM_T|]. destruct u; try apply Req_EM_T; apply Rle_dec. Defined.
(** Length.__iadd__, basic.py:99-161, with real amounts (Length_Model has it with rational ones). *)
Definition iadd_r (a : R) (u : lunit) (b : R) (v : lunit) : Res ent :=
  if unit_eqb u v then Ok (EL (a + b) u)
  else if Req_EM_T a 0 then Ok (EL b v)
  else if Req_EM_T b 0 then Ok (EL a u)
  else match u with
  | UPx | UNone =>
      match v with
      | UPx | UNone => Ok (EL (a + b) u)
      | UPt => Ok (EL (a + b * Q2R pt_px) u)
      | UPc => Ok (EL (a + b * 16) u)
      | _ => Err ValueError
      end
  | UPt =>
      match v with
      | UPx | UNone => Ok (EL (a + b / Q2R pt_px) UPt)
      | UPc => Ok (EL (a + b * 12) UPt)
      | _ => Err ValueError
      end
  | UPc =>
      match v with
      | UPx | UNone => Ok (EL (a + b / 16) UPc)
      | UPt => Ok (EL (a + b / 12) UPc)
      | _ => Err ValueError
      end
  | UCm =>
      match v with
      | UMm => Ok (EL (a + b / 10) UCm)
      | UIn => Ok (EL (a + b / Q2R cm_in) UCm)
      | _ => Err ValueError
      end
  | UMm =>
      match v with
      | UCm => Ok (EL (a + b * 10) UMm)
      | UIn => Ok (EL (a + b / Q2R mm_in) UMm)
      | _ => Err ValueError
      end
  | UIn =>
      match v with
      | UCm => Ok (EL (a + b * Q2R cm_in) UIn)
      | UMm => Ok (EL (a + b * Q2R mm_in) UIn)
      | _ => Err ValueError
      end
  | _ => Err ValueError
  end.
(** x + y; a number added to a Length, on either side, becomes a Length without unit, basic.py:245-252. *)
Definition ent_add (x y : ent) : Res ent :=
  match x, y with
  | EN a, EN b => Ok (EN (a + b))
  | EN a, EL b v => iadd_r b v a UNone
  | EL a u, EN b => iadd_r a u b UNone
  | EL a u, EL b v => iadd_r a u b v
  end.

(** What value() and render() are told; relative lengths, font sizes and the sides of the viewbox as numbers only (the
    code also takes Lengths and text). *)
Record rctx := mkR { r_ppi : option R; r_rel : option R; r_width : option R; r_height : option R;
  r_size : option R; r_fh : option R; r_vb : option (R * R) }.
Definition no_rctx : rctx := mkR None None None None None None None.
(** Length.value, basic.py:398-477; [rel] is relative_length. *)
Definition value_r (c : rctx) (rel : option R) (a : R) (u : lunit) : ent :=
  match u with
  | UPct => match rel with None => EL a u | Some r => EN (a / 100 * r) end
  | UMm => match r_ppi c with None => EL a u | Some p => EN (a * p * Q2R mm_in) end
  | UCm => match r_ppi c with None => EL a u | Some p => EN (a * p * Q2R cm_in) end
  | UIn => match r_ppi c with None => EL a u | Some p => EN (a * p) end
  | UPx | UNone => EN a
  | UPt => EN (a * Q2R pt_px)
  | UPc => EN (a * 16)
  | UEm => match r_size c with None => EL a u | Some f => EN (a * f) end
  | UEx => match r_fh c with None => EL a u | Some f => EN (a * f) end
  | UVw => match r_vb c with None => EL a u | Some (w, _) => EN (a * w / 100) end
  | UVh | UVmin | UVmax => match r_vb c with None => EL a u | Some (_, h) => EN (a * h / 100) end
  | UOther _ => EN a
  end.
Definition ent_value (c : rctx) (rel : option R) (x : ent) : ent := match x with EN r => EN r | EL a u => value_r c rel a u end.
Definition or_else (a b : option R) : option R := match a with None => b | _ => a end.
(** render, basic.py:2167-2203. *)
Definition render (c : rctx) (m : lmx) : lmx :=
  LM (la m) (lb m) (lc m) (ld m)
     (ent_value c (or_else (r_width c) (r_rel c)) (le m)) (ent_value c (or_else (r_height c) (r_rel c)) (lf m)).

(** matrix_multiply(m, s), basic.py:2495-2517. In the first four entries "+ s.e * 0" adds a Length of amount 0, which turns
    into the sum so far without a unit, and float() gives that back. *)
Definition lmul (m s : lmx) : Res lmx :=
  do e1 <- ent_add (ent_scale (la s) (le m)) (ent_scale (lc s) (lf m));
  do e <- ent_add e1 (ent_scale 1 (le s));
  do f1 <- ent_add (ent_scale (lb s) (le m)) (ent_scale (ld s) (lf m));
  do f <- ent_add f1 (ent_scale 1 (lf s));
  Ok (LM (la s * la m + lc s * lb m) (lb s * la m + ld s * lb m) (la s * lc m + lc s * ld m) (lb s * lc m + ld s * ld m) e f).
(** Matrix(a, b, c, d, e, f, **c) with Lengths for e and f, basic.py:1947-1955, and translate(tx, ty), 2453-2459. *)
Definition lmx_of (c : rctx) (a b c0 d : R) (e f : ent) : lmx := render c (LM a b c0 d e f).
Definition l_translate (x y : ent) : lmx := lmx_of no_rctx 1 0 0 1 x y.
(** pre_cat and the pre_ operations, basic.py:2344-2407. *)
Definition lpre_cat (m x : lmx) : Res lmx := lmul x m.
Definition lpre_translate (m : lmx) (x y : ent) : Res lmx := lpre_cat m (l_translate x y).
(** pre_scale, pre_rotate and pre_skew do the same with [k] = the scale, rotation or skew: around the point (x, y). *)
Definition lpre_about (m : lmx) (k : mx) (x y : ent) : Res lmx :=
  if ent_zero_dec x then
    if ent_zero_dec y then lpre_cat m (lmx_num k)
    else do m1 <- lpre_translate m x y; do m2 <- lpre_cat m1 (lmx_num k); lpre_translate m2 (ent_neg x) (ent_neg y)
  else do m1 <- lpre_translate m x y; do m2 <- lpre_cat m1 (lmx_num k); lpre_translate m2 (ent_neg x) (ent_neg y).

(** Length(param).value(), basic.py:2094-2162: a number or a Length still to be resolved. *)
Definition len_param (p : text) : Res ent :=
  do v <- value no_ctx (len_of_text p);
  Ok (match v with VNum q => EN (Q2R q) | VLen l => EL (Q2R (amount l)) (units l) end).
Definition lcentre (ps : list text) : Res (ent * ent) :=
  match ps with
  | [] => Ok (EN 0, EN 0)
  | [x] => do x <- len_param x; Ok (x, EN 0)
  | x :: y :: _ => do x <- len_param x; do y <- len_param y; Ok (x, y)
  end.
(** The loop body of parse, basic.py:2085-2164, with lengths (Transform_Model has it with numbers). *)
Definition lapply_func (m : lmx) (nm : text) (ps : list text) : Res lmx :=
  if teqb nm (T "matrix") then
    do l <- mapM num_param ps; do k <- mx_of l; lpre_cat m (lmx_num k)
  else if teqb nm (T "translate") then
    match ps with
    | [] => Ok m
    | [x] => do x <- len_param x; lpre_translate m x (EN 0)
    | x :: y :: _ => do x <- len_param x; do y <- len_param y; lpre_translate m x y
    end
  else if teqb nm (T "translatex") then
    match ps with [] => Err IndexError | x :: _ => do x <- len_param x; lpre_translate m x (EN 0) end
  else if teqb nm (T "translatey") then
    match ps with [] => Err IndexError | y :: _ => do y <- len_param y; lpre_translate m (EN 0) y end
  else if teqb nm (T "scale") then
    do l <- mapM num_param ps;
    match l with
    | [] => lpre_about m (m_scale 1 None) (EN 0) (EN 0)
    | [sx] => lpre_about m (m_scale sx None) (EN 0) (EN 0)
    | [sx; sy] => lpre_about m (m_scale sx (Some sy)) (EN 0) (EN 0)
    | [sx; sy; x] => lpre_about m (m_scale sx (Some sy)) (EN x) (EN 0)
    | [sx; sy; x; y] => lpre_about m (m_scale sx (Some sy)) (EN x) (EN y)
    | _ => Err TypeError
    end
  else if teqb nm (T "scalex") then
    match ps with [] => Err IndexError | x :: _ => do x <- num_param x; lpre_about m (m_scale_x x) (EN 0) (EN 0) end
  else if teqb nm (T "scaley") then
    match ps with [] => Err IndexError | y :: _ => do y <- num_param y; lpre_about m (m_scale_y y) (EN 0) (EN 0) end
  else if teqb nm (T "rotate") then
    match ps with
    | [] => Err IndexError
    | a :: ps' => do a <- angle_parse a; do (x, y) <- lcentre ps'; lpre_about m (m_rotate a) x y
    end
  else if teqb nm (T "skew") then
    match ps with
    | [] => Err IndexError
    | [a] => do a <- angle_parse a; Ok m
    | a :: b :: ps' => do a <- angle_parse a; do b <- angle_parse b; do (x, y) <- lcentre ps'; lpre_about m (m_skew a b) x y
    end
  else if teqb nm (T "skewx") then
    match ps with
    | [] => Err IndexError
    | a :: ps' => do a <- angle_parse a; do (x, y) <- lcentre ps'; lpre_about m (m_skew_x a) x y
    end
  else if teqb nm (T "skewy") then
    match ps with
    | [] => Err IndexError
    | b :: ps' => do b <- angle_parse b; do (x, y) <- lcentre ps'; lpre_about m (m_skew_y b) x y
    end
  else Ok m.
Fixpoint lapply_funcs (m : lmx) (l : list (text * text)) : Res lmx :=
  match l with
  | [] => Ok m
  | (nm, args) :: l' => do m' <- lapply_func m nm (find_params 0 args); lapply_funcs m' l'
  end.
(** Matrix(text, **c), basic.py:1936-1939. *)
Definition lmx_of_text (c : rctx) (s : text) : Res lmx :=
  do m <- lapply_funcs lident (find_funcs 0 (lower s)); Ok (render c m).
