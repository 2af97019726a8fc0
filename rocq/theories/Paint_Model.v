(** Paint properties, nodes.py:522-566. *)
Require Import ZArith QArith List Ascii String Bool.
Require Import Verif.Base Verif.Color_Model Verif.Dom_Model.
Import ListNotations.

(** float(text): a number, an infinity, not a number, or ValueError. *)
Inductive pyf := FNum (q : Q) | FInf | FNan | FBad.
Section Paint.
  Variable pyfloat : text -> pyf.
  (** Color(v) for a value that is not None, basic.py:508-518. Whole numbers stand for Python integers; other numbers raise in
      Color.parse, which matches text. *)
  Definition value_color (v : value) : Res color :=
    match v with
    | VText s => Color_Model.parse s
    | VNum q => if Pos.eqb (Qden (Qred q)) 1 then color_of (AInt (Qnum (Qred q))) else Err TypeError
    | VNone => Err Unmodelled
    end.
  (** values.get(key), with None for a missing key. *)
  Definition value_of (d : dict value) (key : text) : option value :=
    match dget key d with Some VNone => None | x => x end.
  Definition paint_color (d : dict value) (key : text) : Res (option color) :=
    match value_of d key with None => Ok None | Some v => do c <- value_color v; Ok (Some c) end.
  (** c.opacity = float(o) within try ... except ValueError, nodes.py:541-544, 559-562; the rounding of an infinity raises
      OverflowError and that of NaN ValueError. *)
  Definition try_opacity (c : color) (o : value) : Res color :=
    match o with
    | VNum q => match set_opacity c q with Err ValueError => Ok c | r => r end
    | VText t => match pyfloat t with
                 | FNum q => match set_opacity c q with Err ValueError => Ok c | r => r end
                 | FInf => Err OverflowError
                 | FNan | FBad => Ok c
                 end
    | VNone => Err TypeError
    end.
  (** fill, nodes.py:552-563. The result is None or a Color, whose value may be None. *)
  Definition fill (d : dom) (i : nat) : Res (option color) :=
    do v <- get_values d i;
    do f <- paint_color v (T "fill"%string);
    match value_of v (T "fill-opacity"%string), f with
    | Some o, Some (Some z) => do c <- try_opacity (Some z) o; Ok (Some c)
    | _, _ => Ok f
    end.
  (** stroke, nodes.py:530-545: it reads self.stroke, that is itself; the colour changed is not the one returned. [fuel] is the
      depth of recursion that Python permits. *)
  Fixpoint stroke (fuel : nat) (d : dom) (i : nat) : Res (option color) :=
    match fuel with
    | O => Err RecursionError
    | S fuel =>
        do v <- get_values d i;
        do s <- paint_color v (T "stroke"%string);
        match value_of v (T "stroke-opacity"%string) with
        | None => Ok s
        | Some o =>
            do s1 <- stroke fuel d i;
            match s1 with
            | None => Ok s
            | Some _ =>
                do s2 <- stroke fuel d i;
                match s2 with
                | Some (Some z) => do s3 <- stroke fuel d i; do c <- try_opacity (match s3 with Some c => c | None => None end) o; Ok s
                | _ => Ok s
                end
            end
        end
    end.
End Paint.
