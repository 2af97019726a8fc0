(** Matrix.parse of svgio/basic.py:2066-2165 in binary floating point: transform text to matrix. Transform_Model models it on the
    real numbers; the patterns are shared, they work on text. *)
Require Import ZArith String List Bool.
From Flocq Require Import Core BinarySingleNaN.
Require Import Verif.Base Verif.Length_Model Verif.Angle_Model Verif.Transform_Model Verif.Float_Model Verif.FloatAngle_Model Verif.FloatText_Model Verif.FloatLength_Model.
Import ListNotations.
Open Scope Z_scope.

(** Matrix() and Matrix(components) for numbers, basic.py:1926-1955. *)
Definition fident : fmx := FM (fz 1) (fz 0) (fz 0) (fz 1) (fz 0) (fz 0).
Definition fmx_of (l : list fl) : Res fmx :=
  match l with
  | [] => Ok fident
  | [_] => Err TypeError
  | a :: b :: c :: d :: e :: f :: _ => Ok (FM a b c d e f)
  | _ => Err IndexError
  end.
(** Length(param).value(); a length that needs a ppi or a viewport is outside the model. *)
Definition fno_ctx : fctx := mkFctx None None None None None.
Definition fpx_param (p : text) : Res fl := match fvalue fno_ctx (flen_of_text p) with FNumber x => Ok x | FLength _ => Err Unmodelled end.
(** Angle.parse, basic.py:1849-1866. *)
Definition fangle_parse (s : text) : Res fl :=
  let s := lower s in
  match strip_suffix (T "deg") s with
  | Some p => rmap fdegrees (ffloat p)
  | None =>
  match strip_suffix (T "grad") s with
  | Some p => rmap fgradians (ffloat p)
  | None =>
  match strip_suffix (T "rad") s with
  | Some p => rmap fradians (ffloat p)
  | None =>
  match strip_suffix (T "turn") s with
  | Some p => rmap fturns (ffloat p)
  | None =>
  match strip_suffix (T "%") s with
  | Some p => rmap (fun x => fturns (fdiv x (fz 100))) (ffloat p)
  | None => rmap fdegrees (ffloat s)
  end end end end end.

Section Trig.
  (** cos, sin and tan of the C library. *)
  Variables fcos fsin ftan : fl -> fl.
  (** Matrix.scale, translate, rotate and skew, basic.py:2437-2485. *)
  Definition fm_scale (sx sy : fl) : fmx := FM sx (fz 0) (fz 0) sy (fz 0) (fz 0).
  Definition fm_translate (tx ty : fl) : fmx := FM (fz 1) (fz 0) (fz 0) (fz 1) tx ty.
  Definition fm_rotate (a : fl) : fmx := FM (fcos a) (fsin a) (fneg (fsin a)) (fcos a) (fz 0) (fz 0).
  Definition fm_skew (a b : fl) : fmx := FM (fz 1) (ftan b) (ftan a) (fz 1) (fz 0) (fz 0).

  (** An optional centre coordinate: omitted and None both mean 0. *)
  Definition fc0 (x : option fl) : fl := match x with Some v => v | None => fz 0 end.
  (** pre_cat and the pre_ operations, basic.py:2344-2407; [fabout]: pre_scale, pre_rotate and pre_skew all do the same with the centre. *)
  Definition fpre_cat (m x : fmx) : fmx := fmul_mx x m.
  Definition fpre_translate (m : fmx) (tx ty : fl) : fmx := fpre_cat m (fm_translate tx ty).
  Definition fabout (m k : fmx) (x y : option fl) : fmx :=
    if feq (fc0 x) (fz 0) && feq (fc0 y) (fz 0) then fpre_cat m k
    else fpre_translate (fpre_cat (fpre_translate m (fc0 x) (fc0 y)) k) (fneg (fc0 x)) (fneg (fc0 y)).
  Definition fpre_scale (m : fmx) (sx : fl) (sy : option fl) (x y : option fl) : fmx :=
    fabout m (fm_scale sx (match sy with Some v => v | None => sx end)) x y.
  Definition fpre_rotate (m : fmx) (a : fl) (x y : option fl) : fmx := fabout m (fm_rotate a) x y.
  Definition fpre_skew (m : fmx) (a b : fl) (x y : option fl) : fmx := fabout m (fm_skew a b) x y.

  (** The two optional centre parameters of rotate and skew. *)
  Definition fcentre (ps : list text) : Res (option fl * option fl) :=
    match ps with
    | [] => Ok (None, None)
    | [x] => do x <- fpx_param x; Ok (Some x, None)
    | x :: y :: _ => do x <- fpx_param x; do y <- fpx_param y; Ok (Some x, Some y)
    end.
  (** The loop body, basic.py:2085-2164. *)
  Definition fapply_func (m : fmx) (nm : text) (ps : list text) : Res fmx :=
    if teqb nm (T "matrix") then
      do l <- mapM ffloat ps; do k <- fmx_of l; Ok (fpre_cat m k)
    else if teqb nm (T "translate") then
      match ps with
      | [] => Ok m
      | [x] => do x <- fpx_param x; Ok (fpre_translate m x (fz 0))
      | x :: y :: _ => do x <- fpx_param x; do y <- fpx_param y; Ok (fpre_translate m x y)
      end
    else if teqb nm (T "translatex") then
      match ps with [] => Err IndexError | x :: _ => do x <- fpx_param x; Ok (fpre_translate m x (fz 0)) end
    else if teqb nm (T "translatey") then
      match ps with [] => Err IndexError | y :: _ => do y <- fpx_param y; Ok (fpre_translate m (fz 0) y) end
    else if teqb nm (T "scale") then
      do l <- mapM ffloat ps;
      match l with
      | [] => Ok (fpre_scale m (fz 1) None None None)
      | [sx] => Ok (fpre_scale m sx None None None)
      | [sx; sy] => Ok (fpre_scale m sx (Some sy) None None)
      | [sx; sy; x] => Ok (fpre_scale m sx (Some sy) (Some x) None)
      | [sx; sy; x; y] => Ok (fpre_scale m sx (Some sy) (Some x) (Some y))
      | _ => Err TypeError
      end
    else if teqb nm (T "scalex") then
      match ps with [] => Err IndexError | x :: _ => do x <- ffloat x; Ok (fpre_scale m x (Some (fz 1)) None None) end
    else if teqb nm (T "scaley") then
      match ps with [] => Err IndexError | y :: _ => do y <- ffloat y; Ok (fpre_scale m (fz 1) (Some y) None None) end
    else if teqb nm (T "rotate") then
      match ps with
      | [] => Err IndexError
      | a :: ps' => do a <- fangle_parse a; do (x, y) <- fcentre ps'; Ok (fpre_rotate m a x y)
      end
    else if teqb nm (T "skew") then
      match ps with
      | [] => Err IndexError
      | [a] => do a <- fangle_parse a; Ok m
      | a :: b :: ps' => do a <- fangle_parse a; do b <- fangle_parse b; do (x, y) <- fcentre ps'; Ok (fpre_skew m a b x y)
      end
    else if teqb nm (T "skewx") then
      match ps with
      | [] => Err IndexError
      | a :: ps' => do a <- fangle_parse a; do (x, y) <- fcentre ps'; Ok (fpre_skew m a (fz 0) x y)
      end
    else if teqb nm (T "skewy") then
      match ps with
      | [] => Err IndexError
      | b :: ps' => do b <- fangle_parse b; do (x, y) <- fcentre ps'; Ok (fpre_skew m (fz 0) b x y)
      end
    else Ok m.
  (** The for loop of parse, basic.py:2084-2165, and Matrix(text), basic.py:1936-1939. *)
  Fixpoint fapply_funcs (m : fmx) (l : list (text * text)) : Res fmx :=
    match l with
    | [] => Ok m
    | (nm, args) :: l' => do m' <- fapply_func m nm (find_params 0 args); fapply_funcs m' l'
    end.
  Definition fmx_of_text (s : text) : Res fmx := fapply_funcs fident (find_funcs 0 (lower s)).
End Trig.
