(** Point arithmetic, equality and indexing by the sort of its operand: svgio/basic.py 1449-1774, and the
    indexing of Matrix, 2010-2036. The coordinates of the point itself are floats, taken as exact rationals. *)
Require Import ZArith QArith Qabs List Ascii Bool.
Require Import Verif.Base Verif.FmtG_Model.
Import ListNotations.
Open Scope Q_scope.

(** An item of a tuple or list: a real number, or something no arithmetic with a float accepts (None, a str, ...). Complex
    numbers inside a tuple are not modelled. *)
Inductive el := EN (q : Q) | EX.
(** The operands modelled. Left out: Length and segments (a segment has no x, but can be indexed). *)
Inductive operand :=
| OPoint (x y : Q) | OSeq (l : list el) | OComplex (re im : Q) | ONum (q : Q) | OMatrix (a b c d e f : Q) | OText (t : text) | ONone.
Definition point : Set := Q * Q.

(** other.x and other.y *)
Definition attr_x (o : operand) : Res Q := match o with OPoint x _ => Ok x | _ => Err AttributeError end.
Definition attr_y (o : operand) : Res Q := match o with OPoint _ y => Ok y | _ => Err AttributeError end.
(** other.real and other.imag; Point has them too, 1741-1749. *)
Definition attr_real (o : operand) : Res Q :=
  match o with OComplex r _ => Ok r | ONum q => Ok q | OPoint x _ => Ok x | _ => Err AttributeError end.
Definition attr_imag (o : operand) : Res Q :=
  match o with OComplex _ i => Ok i | ONum _ => Ok 0 | OPoint _ y => Ok y | _ => Err AttributeError end.
(** Point.__getitem__, 1501-1507. *)
Definition point_item (p : point) (i : Z) : Res Q :=
  if Z.eqb i 0 then Ok (fst p) else if Z.eqb i 1 then Ok (snd p) else Err IndexError.
(** Point.__setitem__, 1509-1515. *)
Definition point_set (p : point) (i : Z) (v : Q) : Res point :=
  if Z.eqb i 0 then Ok (v, snd p) else if Z.eqb i 1 then Ok (fst p, v) else Err IndexError.
(** Point.__len__, 1498-1499. *)
Definition point_len (p : point) : Z := 2.
(** Matrix.__getitem__, 2010-2022, for numbers a to f: falls off its end otherwise, so None. *)
Definition matrix_item (a b c d e f : Q) (i : Z) : el :=
  if Z.eqb i 0 then EN a else if Z.eqb i 1 then EN b else if Z.eqb i 2 then EN c else if Z.eqb i 3 then EN d
  else if Z.eqb i 4 then EN e else if Z.eqb i 5 then EN f else EX.
(** Matrix.__setitem__, 2024-2036, on the list of the six. *)
Definition matrix_set (m : list Q) (i : Z) (v : Q) : list Q :=
  match m with
  | [a; b; c; d; e; f] =>
      if Z.eqb i 0 then [v; b; c; d; e; f] else if Z.eqb i 1 then [a; v; c; d; e; f] else if Z.eqb i 2 then [a; b; v; d; e; f]
      else if Z.eqb i 3 then [a; b; c; v; e; f] else if Z.eqb i 4 then [a; b; c; d; v; f] else if Z.eqb i 5 then [a; b; c; d; e; v]
      else m
  | _ => m
  end.
(** other[0] and other[1] (not negative here). *)
Definition item (o : operand) (i : nat) : Res el :=
  match o with
  | OPoint x y => rmap EN (point_item (x, y) (Z.of_nat i))
  | OSeq l => match nth_error l i with Some e => Ok e | None => Err IndexError end
  | OMatrix a b c d e f => Ok (matrix_item a b c d e f (Z.of_nat i))
  | OText t => match nth_error t i with Some _ => Ok EX | None => Err IndexError end
  | OComplex _ _ | ONum _ | ONone => Err TypeError
  end.
(** A float with an item. *)
Definition num (e : el) : Res Q := match e with EN q => Ok q | EX => Err TypeError end.

(** try: e except h: pass, followed by k *)
Definition except {A} (e : Res A) (h : exn -> bool) (k : Res A) : Res A :=
  match e with Err x => if h x then k else e | _ => e end.
Definition is_attribute (x : exn) : bool := match x with AttributeError => true | _ => false end.
Definition is_type (x : exn) : bool := match x with TypeError => true | _ => false end.
Definition is_type_index (x : exn) : bool := match x with TypeError | IndexError => true | _ => false end.

(** __add__ and __radd__ (1622-1646), __sub__ (1673-1695), __rsub__ (1697-1719), which differ in [f] only; [f] gets the
    coordinate of the point first. NotImplemented ends in TypeError, as no operand modelled has a method for a Point. *)
Definition p_arith (f : Q -> Q -> Q) (p : point) (o : operand) : Res point :=
  let (sx, sy) := p in
  except (do x <- attr_x o; do y <- attr_y o; Ok (f sx x, f sy y)) is_attribute
  (except (do o1 <- item o 1; do y <- num o1; do o0 <- item o 0; do x <- num o0; Ok (f sx x, f sy y)) is_type_index
  (except (do x <- attr_real o; do y <- attr_imag o; Ok (f sx x, f sy y)) is_attribute
  match o with ONum q => Ok (f sx q, sy) | _ => Err TypeError end)).
Definition p_add := p_arith Qplus.
Definition p_sub := p_arith Qminus.
Definition p_rsub := p_arith (fun a b => b - a).

(** __iadd__ (1597-1620), __isub__ (1648-1671): the object afterwards and the value the name is bound to. After
    NotImplemented Python calls __add__ or __sub__. *)
Definition p_iarith (f : Q -> Q -> Q) (p : point) (o : operand) : point * Res point :=
  let (sx, sy) := p in
  match (do x <- attr_x o; do y <- attr_y o; Ok (f sx x, f sy y)) with
  | Ok r => (r, Ok r)
  | Err AttributeError =>
      let second :=
        match (do o1 <- item o 1; num o1) with
        | Ok y =>
            let p1 := (sx, f sy y) in
            match (do o0 <- item o 0; num o0) with Ok x => let r := (f sx x, f sy y) in (r, Ok r) | Err e => (p1, Err e) end
        | Err e => (p, Err e)
        end in
      match second with
      | (p1, Err e) =>
          if is_type_index e then
            match (do x <- attr_real o; do y <- attr_imag o; Ok (f (fst p1) x, f (snd p1) y)) with
            | Ok r => (r, Ok r)
            | Err AttributeError =>
                match o with
                | ONum q => let r := (f (fst p1) q, snd p1) in (r, Ok r)
                | _ => (p1, p_arith f p1 o)
                end
            | Err e => (p1, Err e)
            end
          else (p1, Err e)
      | r => r
      end
  | Err e => (p, Err e)
  end.

(** complex(self) * complex(a, b) *)
Definition cmul (p : point) (a b : Q) : point := (fst p * a - snd p * b, fst p * b + snd p * a).
(** Matrix.point_in_matrix_space, 2414-2418, for a matrix of numbers. *)
Definition in_space (a b c d e f : Q) (p : point) : point :=
  (fst p * a + snd p * c + 1 * e, fst p * b + snd p * d + 1 * f).

Section Text.
(** Matrix(text) for a text whose lengths are resolved, Transform_Model and MatLen_Model: its a, b, c, d, e, f. *)
Variable matrix_of : text -> Res (Q * Q * Q * Q * Q * Q).

(** __mul__ and __rmul__, 1573-1595. The last attempt, a float times what is left over, raises TypeError. *)
Definition p_mul (p : point) (o : operand) : Res point :=
  match o with
  | OText t => do m <- matrix_of t; let '(a, b, c, d, e, f) := m in Ok (in_space a b c d e f p)
  | OMatrix a b c d e f => Ok (in_space a b c d e f p)
  | _ =>
      except (do x <- attr_x o; do y <- attr_y o; Ok (cmul p x y)) is_attribute
      (except (do o0 <- item o 0; do o1 <- item o 1; do x <- num o0; do y <- num o1; Ok (cmul p x y)) is_type_index
      (except (do x <- attr_real o; do y <- attr_imag o; Ok (cmul p x y)) is_attribute
      (Err TypeError)))
  end.
(** __imul__, 1537-1571: every attempt works out the product before it stores it. *)
Definition p_imul (p : point) (o : operand) : point * Res point :=
  match p_mul p o with Ok r => (r, Ok r) | Err e => (p, Err e) end.
End Text.

(** Point(x), 1449-1476: what is found is stored as it is. *)
Definition p_new (o : operand) : Res (el * el) :=
  match o with
  | OText t => rmap (fun r => (EN (fst r), EN (snd r))) (point_of_text t)
  | ONone => Ok (EX, EX)
  | _ =>
      except (do y <- attr_y o; do x <- attr_x o; Ok (EN x, EN y)) is_attribute
      (except (do y <- item o 1; do x <- item o 0; Ok (x, y)) is_type
      (except (do y <- attr_imag o; do x <- attr_real o; Ok (EN x, EN y)) is_attribute
      (Err TypeError)))
  end.
(** abs(a - b) <= ERROR, constants.py:6 *)
Definition near (a b : Q) : bool := Qle_bool (Qabs (a - b)) (1 # 1000000000000).
(** __eq__, 1484-1493. Any exception of Point(other) gives NotImplemented; then the operand is asked, which for those modelled
    ends in the comparison of identity: False. *)
Definition p_eq (p : point) (o : operand) : Res bool :=
  match o with
  | ONone => Ok false
  | _ =>
      match p_new o with
      | Ok (x, y) => do x <- num x; if near (fst p) x then do y <- num y; Ok (near (snd p) y) else Ok false
      | Err _ => Ok false
      end
  end.
(** __ne__, 1495-1496. *)
Definition p_ne (p : point) (o : operand) : Res bool := rmap negb (p_eq p o).
(** Matrix.__eq__ with a Point, 1960-1966: not a Matrix. *)
Definition matrix_eq_point (a b c d e f : Q) (p : point) : bool := false.
(** Matrix * Point: Matrix.__mul__ is __matmul__ (1988-2008); it copies itself and reads other.a, which a Point lacks. *)
Definition matrix_mul_point (a b c d e f : Q) (p : point) : Res point := Err AttributeError.
(** __hash__, 1478-1482, for the hash of a pair of floats. *)
Definition p_hash (h : Q * Q -> Z) (p : point) : Z := h p.

(** move_towards, 1755-1758: amount * (p2 - self) is Point.__rmul__ with a number. [matrix_of] is not reached. *)
Definition p_move_towards (p : point) (o : operand) (amount : Q) : Res point :=
  do q <- p_new o; do x <- num (fst q); do y <- num (snd q);
  do d <- p_sub (x, y) (OPoint (fst p) (snd p));
  do m <- p_mul (fun _ => Err Unmodelled) d (ONum amount);
  snd (p_iarith Qplus p (OPoint (fst m) (snd m))).
(** reflected_across, 1773-1774: (p - self) is __sub__ of a Point or else __rsub__ of self, which read the same operand;
    p + (...) is then __add__ or __radd__. *)
Definition p_reflected (p : point) (o : operand) : Res point :=
  do d <- p_rsub p o; p_add d o.

(** for v in obj, of an object without __iter__: obj[0], obj[1], ... until IndexError. None: still running. *)
Fixpoint iterate {A} (get : Z -> Res A) (fuel : nat) (i : Z) : option (Res (list A)) :=
  match fuel with
  | O => None
  | S k => match get i with
           | Ok v => match iterate get k (i + 1) with Some (Ok l) => Some (Ok (v :: l)) | r => r end
           | Err IndexError => Some (Ok [])
           | Err e => Some (Err e)
           end
  end.
