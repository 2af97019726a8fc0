(** Numbers of binary floating point written and read: Length.str, Point, Length and Viewbox of svgio/basic.py. *)
Require Import ZArith QArith Qabs Ascii String List Bool.
From Flocq Require Import Core BinarySingleNaN.
Require Import Verif.Base Verif.Fmt_Model Verif.Length_Model Verif.Viewbox_Model Verif.FmtG_Model Verif.Float_Model Verif.FloatView_Model.
Import ListNotations.

(** The float nearest to n / d, ties to even, with a sign; n and d are of any size. *)
Definition fratio (neg : bool) (n d : positive) : fl :=
  SF2B _ (proj1 (Bdiv_correct_aux 53 1024 p53 p1024 mode_NE neg n 0 false d 0)).
Definition fmag (neg : bool) (q : Q) : fl := match Qnum q with Zpos n => fratio neg n (Qden q) | _ => B754_zero neg end.
(** float(s) of a matched decimal number: Python rounds it once. Base.fnum_val is the number itself. *)
Definition ffnum (f : fnum) : fl := fmag (f_neg f) (Qabs (fnum_val f)).
(** float(s) for a whole string that is exactly one PATTERN_FLOAT. *)
Definition ffloat (s : text) : Res fl := match match_float s with Some (f, []) => Ok (ffnum f) | _ => Err ValueError end.

Definition fsign (x : fl) : text := if Bsign x then ["-"%char] else [].
(** Length.str of a finite float, basic.py:479-497: "%.12f" of the magnitude after the sign, which a negative zero has too. *)
Definition flength_str (x : fl) : text := fsign x ++ length_str (Qabs (f2q x)).
(** One coordinate of Point.__str__, basic.py:1525-1534, a finite float; with the sign of a negative zero. *)
Definition fcoord_str (x : fl) : text := fsign x ++ coord_str (Qabs (f2q x)).
(** Point.__str__, basic.py:1524-1535. *)
Definition fpoint_str (p : fpt) : text := fcoord_str (fx p) ++ ","%char :: fcoord_str (fy p).
(** Point(text), basic.py:1449-1454; see FmtG_Model. *)
Definition fmatch_pair (s : text) : option fpt :=
  match match_float s with
  | None => None
  | Some (f, r) =>
      match match_comma r with
      | None => None
      | Some r => match match_float r with Some (g, _) => Some (FP (ffnum f) (ffnum g)) | None => None end
      end
  end.
Fixpoint ffind_pair (s : text) : option fpt :=
  match fmatch_pair s with
  | Some p => Some p
  | None => match s with [] => None | _ :: s' => ffind_pair s' end
  end.
Definition fpoint_of_text (s : text) : Res fpt := match ffind_pair s with Some p => Ok p | None => Err IndexError end.

(** Length(text), basic.py:47-64, and Length.__str__, basic.py:295-296; see Length_Model. *)
Record flength := mkFlen { famount : fl; funits : lunit }.
Fixpoint ffind_length (s : text) : option (fl * text) :=
  match match_float s with
  | Some (f, r) => Some (ffnum f, fst (span is_unit_char r))
  | None => match s with [] => None | _ :: s' => ffind_length s' end
  end.
Definition flen_of_text (s : text) : flength :=
  match ffind_length s with Some (a, u) => mkFlen a (unit_of_text u) | None => mkFlen (fz 0) UNone end.
Definition flen_str (l : flength) : text := flength_str (famount l) ++ unit_text (funits l).

(** Viewbox(text) and Viewbox.__str__, basic.py:2541-2570; see Viewbox_Model. *)
Fixpoint ffind_floats (skip : nat) (s : text) : list fl :=
  match s with
  | [] => []
  | _ :: s' =>
      match skip with
      | S k => ffind_floats k s'
      | O =>
          match match_float s with
          | Some (f, rest) => ffnum f :: ffind_floats (List.length s' - List.length rest) s'
          | None => ffind_floats 0 s'
          end
      end
  end.
Definition fvb_str (x y w h : fl) : text :=
  flength_str x ++ " "%char :: flength_str y ++ " "%char :: flength_str w ++ " "%char :: flength_str h.
