(** Length of svgio/basic.py:30-497 on exact rationals. Length(None) (amount None) is not modelled:
    every length here has a number. *)
Require Import ZArith QArith Qabs Qround Ascii String List Bool.
Require Import Verif.Base Verif.Fmt_Model.
Import ListNotations.
Open Scope Q_scope.

(** The units attribute (a str) with the texts the code tests for as constructors; [UOther] is any
    other text. *)
Inductive lunit :=
| UNone | UPx | UPt | UPc | UCm | UMm | UIn | UPct | UEm | UEx | UVw | UVh | UVmin | UVmax
| UOther (t : text).

Definition unit_table : list (text * lunit) :=
  [ (T "", UNone); (T "px", UPx); (T "pt", UPt); (T "pc", UPc); (T "cm", UCm); (T "mm", UMm);
    (T "in", UIn); (T "%", UPct); (T "em", UEm); (T "ex", UEx); (T "vw", UVw); (T "vh", UVh);
    (T "vmin", UVmin); (T "vmax", UVmax) ].
Fixpoint lookup_unit (tb : list (text * lunit)) (t : text) : lunit :=
  match tb with
  | [] => UOther t
  | (k, u) :: tb' => if teqb t k then u else lookup_unit tb' t
  end.
Definition unit_of_text (t : text) : lunit := lookup_unit unit_table t.
Definition unit_text (u : lunit) : text :=
  match u with
  | UNone => T "" | UPx => T "px" | UPt => T "pt" | UPc => T "pc" | UCm => T "cm" | UMm => T "mm"
  | UIn => T "in" | UPct => T "%" | UEm => T "em" | UEx => T "ex" | UVw => T "vw" | UVh => T "vh"
  | UVmin => T "vmin" | UVmax => T "vmax" | UOther t => t
  end.
(** self.units == other.units *)
Definition unit_eqb (a b : lunit) : bool := teqb (unit_text a) (unit_text b).

Record length := mkLen { amount : Q; units : lunit }.
(** Length(amount, units), basic.py:59-62. *)
Definition len2 (a : Q) (u : text) : length := mkLen a (unit_of_text u).

(** REGEX_LENGTH.findall(s)[0], constants.py:178: leftmost match of PATTERN_FLOAT, then the longest
    run of [A-Za-z%]. *)
Definition is_unit_char (c : ascii) : bool := is_alpha c || aeqb c "%".
Fixpoint find_length (s : text) : option (Q * text) :=
  match match_float s with
  | Some (f, r) => Some (fnum_val f, fst (span is_unit_char r))
  | None => match s with [] => None | _ :: s' => find_length s' end
  end.
(** Length(text), basic.py:47-64. *)
Definition len_of_text (s : text) : length :=
  match find_length s with
  | Some (a, u) => len2 a u
  | None => mkLen 0 UNone
  end.

(** The other operand: a number, a str or a Length. Length(number) goes through str(number) in the
    code (basic.py:54); Python's repr of a float reads back as the same float, so the amount is kept. *)
Inductive larg := ANum (q : Q) | AText (t : text) | ALen (l : length).
Definition to_len (a : larg) : length :=
  match a with ANum q => mkLen q UNone | AText t => len_of_text t | ALen l => l end.

(** A float or a Length, as returned by several methods. *)
Inductive lval := VNum (q : Q) | VLen (l : length).

Definition is0 (q : Q) : bool := Qeq_bool q 0.
Definition pt_px : Q := 13333 # 10000.
Definition mm_in : Q := 393701 # 10000000.
Definition cm_in : Q := 393701 # 1000000.

(** __float__, basic.py:66-73. *)
Definition len_float (l : length) : Q :=
  match units l with UPt => amount l * pt_px | UPc => amount l * 16 | _ => amount l end.

(** __imul__ and __mul__, basic.py:75-97, 254-257. *)
Definition len_mul (s : length) (o : larg) : Res lval :=
  match o with
  | ANum k => Ok (VLen (mkLen (amount s * k) (units s)))
  | _ =>
      if is0 (amount s) then Ok (VNum 0)
      else
        let o := to_len o in
        if is0 (amount o) then Ok (VLen (mkLen 0 (units s)))
        else if unit_eqb (units s) (units o) then Ok (VLen (mkLen (amount s * amount o) (units s)))
        else match units s, units o with
             | UPct, u => Ok (VLen (mkLen (amount s * amount o / 100) u))
             | u, UPct => Ok (VLen (mkLen (amount s * amount o / 100) u))
             | _, _ => Err ValueError
             end
  end.

(** __iadd__, basic.py:99-161. *)
Definition len_iadd (s o : length) : Res length :=
  let a := amount s in let b := amount o in
  if unit_eqb (units s) (units o) then Ok (mkLen (a + b) (units s))
  else if is0 a then Ok (mkLen b (units o))
  else if is0 b then Ok s
  else match units s with
  | UPx | UNone =>
      match units o with
      | UPx | UNone => Ok (mkLen (a + b) (units s))
      | UPt => Ok (mkLen (a + b * pt_px) (units s))
      | UPc => Ok (mkLen (a + b * 16) (units s))
      | _ => Err ValueError
      end
  | UPt =>
      match units o with
      | UPx | UNone => Ok (mkLen (a + b / pt_px) UPt)
      | UPc => Ok (mkLen (a + b * 12) UPt)
      | _ => Err ValueError
      end
  | UPc =>
      match units o with
      | UPx | UNone => Ok (mkLen (a + b / 16) UPc)
      | UPt => Ok (mkLen (a + b / 12) UPc)
      | _ => Err ValueError
      end
  | UCm =>
      match units o with
      | UMm => Ok (mkLen (a + b / 10) UCm)
      | UIn => Ok (mkLen (a + b / cm_in) UCm)
      | _ => Err ValueError
      end
  | UMm =>
      match units o with
      | UCm => Ok (mkLen (a + b * 10) UMm)
      | UIn => Ok (mkLen (a + b / mm_in) UMm)
      | _ => Err ValueError
      end
  | UIn =>
      match units o with
      | UCm => Ok (mkLen (a + b * cm_in) UIn)
      | UMm => Ok (mkLen (a + b * mm_in) UIn)
      | _ => Err ValueError
      end
  | _ => Err ValueError
  end.

(** __add__ / __radd__, basic.py:245-252. *)
Definition len_add (s : length) (o : larg) : Res length := len_iadd s (to_len o).
(** __neg__, basic.py:264-267. *)
Definition len_neg (l : length) : length := mkLen (- amount l) (units l).
(** __isub__ and __sub__, basic.py:269-278. *)
Definition len_sub (s : length) (o : larg) : Res length := len_iadd s (len_neg (to_len o)).
(** __rsub__, basic.py:280-283: o - s. *)
Definition len_rsub (s : length) (o : larg) : Res length := len_iadd (len_neg s) (to_len o).
(** __abs__, basic.py:163-166. *)
Definition len_abs (l : length) : length := mkLen (Qabs (amount l)) (units l).

(** Float division. *)
Definition qdiv (a b : Q) : Res Q := if is0 b then Err ZeroDivisionError else Ok (a / b).

(** __truediv__ (also __floordiv__), basic.py:168-228. *)
Definition len_div (s : length) (o : larg) : Res lval :=
  match o with
  | ANum k => do a <- qdiv (amount s) k; Ok (VLen (mkLen a (units s)))
  | _ =>
      let a := amount s in
      if is0 a then Ok (VNum 0)
      else
        let o := to_len o in
        let b := amount o in
        if unit_eqb (units s) (units o) then rmap VNum (qdiv a b)
        else rmap VNum
          match units s with
          | UPx | UNone =>
              match units o with
              | UPx | UNone => qdiv a b
              | UPt => qdiv a (b * pt_px)
              | UPc => qdiv a (b * 16)
              | _ => Err ValueError
              end
          | UPt =>
              match units o with
              | UPx | UNone => qdiv a (b / pt_px)
              | UPc => qdiv a (b * 12)
              | _ => Err ValueError
              end
          | UPc =>
              match units o with
              | UPx | UNone => qdiv a (b / 16)
              | UPt => qdiv a (b / 12)
              | _ => Err ValueError
              end
          | UCm =>
              match units o with
              | UMm => qdiv a (b / 10)
              | UIn => qdiv a (b / cm_in)
              | _ => Err ValueError
              end
          | UMm =>
              match units o with
              | UCm => qdiv a (b * 10)
              | UIn => qdiv a (b / mm_in)
              | _ => Err ValueError
              end
          | UIn =>
              match units o with
              | UCm => qdiv a (b * cm_in)
              | UMm => qdiv a (b * mm_in)
              | _ => Err ValueError
              end
          | _ => Err ValueError
          end
  end.

(** __lt__, __le__, __gt__, __ge__, basic.py:230-240. *)
Definition len_lt (s : length) (o : larg) : Res bool := do d <- len_sub s o; Ok (Qltb (amount d) 0).
Definition len_le (s : length) (o : larg) : Res bool := do d <- len_sub s o; Ok (Qle_bool (amount d) 0).
Definition len_gt (s : length) (o : larg) : Res bool := do d <- len_sub s o; Ok (Qltb 0 (amount d)).
Definition len_ge (s : length) (o : larg) : Res bool := do d <- len_sub s o; Ok (Qle_bool 0 (amount d)).

(** in_pixels and in_inches, basic.py:326-342. *)
Definition in_pixels (l : length) : option Q :=
  match units l with
  | UPx | UNone => Some (amount l)
  | UPt => Some (amount l / pt_px)
  | UPc => Some (amount l / 16)
  | _ => None
  end.
Definition in_inches (l : length) : option Q :=
  match units l with
  | UMm => Some (amount l * mm_in)
  | UCm => Some (amount l * cm_in)
  | UIn => Some (amount l)
  | _ => None
  end.
(** ERROR, constants.py:6. *)
Definition ERR : Q := 1 # 1000000000000.
(** abs(s - o) <= ERROR *)
Definition near (s o : Q) : bool := Qle_bool (Qabs (s - o)) ERR.

(** __eq__, basic.py:298-320 (other = None is [None]). The code computes [o] from self, as here. *)
Definition len_eq (s : length) (o : option larg) : bool :=
  match o with
  | None => false
  | Some (ANum q) =>
      match in_pixels s with
      | Some p => near p q
      | None => Qeq_bool q 0 && Qeq_bool (amount s) 0
      end
  | Some o =>
      let o := to_len o in
      if Qeq_bool (amount s) (amount o) && unit_eqb (units s) (units o) then true
      else if match in_pixels s with Some p => near p p | None => false end then true
      else match in_inches s with Some p => near p p | None => false end
  end.

(** The information value() can be given. font_size/font_height go through float(): a number or a
    Length. viewbox is the pair (width, height) that Viewbox(viewbox) ends up with. *)
Inductive farg := FNum (q : Q) | FLen (l : length).
Definition farg_float (f : farg) : Q := match f with FNum q => q | FLen l => len_float l end.
Record ctx := mkCtx {
  c_ppi : option Q; c_rel : option larg; c_size : option farg; c_height : option farg;
  c_vb : option (Q * Q) }.

(** value() for units other than "%", basic.py:426-477. *)
Definition value0 (c : ctx) (l : length) : lval :=
  let a := amount l in
  match units l with
  | UPct => VLen l
  | UMm => match c_ppi c with None => VLen l | Some p => VNum (a * p * mm_in) end
  | UCm => match c_ppi c with None => VLen l | Some p => VNum (a * p * cm_in) end
  | UIn => match c_ppi c with None => VLen l | Some p => VNum (a * p) end
  | UPx | UNone => VNum a
  | UPt => VNum (a * pt_px)
  | UPc => VNum (a * 16)
  | UEm => match c_size c with None => VLen l | Some f => VNum (a * farg_float f) end
  | UEx => match c_height c with None => VLen l | Some f => VNum (a * farg_float f) end
  | UVw => match c_vb c with None => VLen l | Some (w, _) => VNum (a * w / 100) end
  | UVh => match c_vb c with None => VLen l | Some (_, h) => VNum (a * h / 100) end
  | UVmin => match c_vb c with None => VLen l | Some (_, h) => VNum (a * (if Qltb h h then h else h) / 100) end
  | UVmax => match c_vb c with None => VLen l | Some (_, h) => VNum (a * (if Qltb h h then h else h) / 100) end
  | UOther _ => VNum (len_float l)
  end.
(** value(), basic.py:398-477. "%" with a str: str * Length falls back to Length.__rmul__, so the
    percentage is the left operand; with a Length it is the right one. The nested value() call has no
    relative_length, so a percentage comes back as it is. *)
Definition value (c : ctx) (l : length) : Res lval :=
  match units l with
  | UPct =>
      match c_rel c with
      | None => Ok (VLen l)
      | Some (ANum r) => Ok (VNum (amount l / 100 * r))
      | Some (AText t) =>
          do v <- len_mul l (AText t); Ok (match v with VNum q => VNum q | VLen m => value0 c m end)
      | Some (ALen r) =>
          do v <- len_mul r (ALen l); Ok (match v with VNum q => VNum q | VLen m => value0 c m end)
      end
  | _ => Ok (value0 c l)
  end.

(** Length.__str__, basic.py:293-296. *)
Definition len_str (l : length) : text := length_str (amount l) ++ unit_text (units l).
(** Length.str of a float or a Length, basic.py:479-497. *)
Definition static_str (v : lval) : text :=
  match v with
  | VNum q => length_str q
  | VLen l =>
      match units l with
      | UNone => length_str (amount l)
      | u => "'"%char :: length_str (amount l) ++ unit_text u ++ ["'"%char]
      end
  end.
(** value / k for the two kinds of value. *)
Definition lval_div (v : lval) (k : Q) : Res lval :=
  match v with VNum q => rmap VNum (qdiv q k) | VLen l => len_div l (ANum k) end.
(** to_mm, to_cm, to_inch, basic.py:344-396; [k] is 0.0393701, 0.393701 or 1 and [u] the unit text.
    ppi is always a number there (DEFAULT_PPI). *)
Definition to_unit (k : Q) (u : text) (ppi : Q) (c : ctx) (l : length) : Res length :=
  do v <- value (mkCtx (Some ppi) (c_rel c) (c_size c) (c_height c) (c_vb c)) l;
  do w <- lval_div v (ppi * k);
  Ok (len_of_text (static_str w ++ u)).
Definition to_mm := to_unit mm_in (T "mm").
Definition to_cm := to_unit cm_in (T "cm").
Definition to_inch := to_unit 1 (T "in").
