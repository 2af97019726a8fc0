(** The operators *, *=, @ and @= where one operand is a Matrix, as Python dispatches them: svgio/basic.py:1988-2008 (Matrix), svgio/path.py:367-374
    (segments), 2026-2044 (Path), svgio/nodes.py:504-519 (elements). Matrices, points and transform text as in Matrix_Model and Transform_Model. *)
Require Import Reals List Bool.
Require Import Verif.Base Verif.Point_Model Verif.Matrix_Model Verif.Transform_Model.
Import ListNotations.
Open Scope R_scope.

(** A Move, Line, Close, QuadraticBezier or CubicBezier: its points, start to end. Arcs and flags are not modelled. *)
Definition seg := list (option pt).
(** Operands: a Matrix, a str, a Path, a segment, a Node with the children it has (numbers stand for them), a float, None. *)
Inductive obj := OMat (m : mx) | OText (t : text) | OPath (p : list seg) | OSeg (s : seg) | OElem (kids : list nat) | ONum (q : R) | ONone.

(** self.a, ... of the right operand of matrix_multiply, basic.py:2495-2517: only a Matrix has them. The a of a Node is the builder of
    hyperlinks (nodes.py:61-66, 2317), which cannot be multiplied. *)
Definition matrix_times (m : mx) (o : obj) : Res mx :=
  match o with
  | OMat k => Ok (matmul m k)
  | OText t => do k <- mx_of_text t; Ok (matmul m k)
  | OElem _ => Err TypeError
  | OPath _ | OSeg _ | ONum _ | ONone => Err AttributeError
  end.
(** copy(segment): CubicBezier.__init__, path.py:933-936, tests the second control through the first; a Point of None is not modelled. *)
Definition seg_copy (s : seg) : Res seg :=
  match s with
  | [a; None; _; b] => Ok [a; None; None; b]
  | [_; Some _; None; _] => Err Unmodelled
  | _ => Ok s
  end.
(** __imul__ of Move, Linear, QuadraticBezier and CubicBezier, path.py:559-567, 639-647, 785-795, 971-983: what is no matrix changes nothing. *)
Definition seg_imul (s : seg) (o : obj) : Res seg :=
  match o with
  | OMat m => Ok (map (option_map (apply_mx m)) s)
  | OText t => do m <- mx_of_text t; Ok (map (option_map (apply_mx m)) s)
  | _ => Ok s
  end.
(** copy(path), path.py:1990-1995: Path(path) is empty, see PathEdit_Model. *)
Definition path_copy (p : list seg) : list seg := [].
(** Path.__imatmul__, path.py:2036-2044: a Path has no transform. *)
Definition path_imatmul (p : list seg) (o : obj) : Res (list seg) :=
  match o with
  | OMat _ => Err AttributeError
  | OText t => do _ <- mx_of_text t; Err AttributeError
  | _ => Ok p
  end.

(** type(x).__mul__(x, y). None: there is none, or it gives NotImplemented. A Node is a list, and list comes before Transformable in the
    order of resolution: list.__mul__ wants a whole number. A str repeats itself for whole numbers only, and is asked last. *)
Definition mul_l (x y : obj) : option (Res obj) :=
  match x with
  | OMat m => Some (rmap OMat (matrix_times m y))
  | OSeg s => match y with OMat _ | OText _ => Some (do c <- seg_copy s; rmap OSeg (seg_imul c y)) | _ => None end
  | OElem _ => Some (Err TypeError)
  | OText _ | OPath _ | ONum _ | ONone => None
  end.
(** type(y).__rmul__(y, x). Matrix: copy(x).__imatmul__(y), basic.py:1993-1996. *)
Definition mul_r (y x : obj) : option (Res obj) :=
  match y with
  | OMat m =>
      Some match x with
      | OMat k => rmap OMat (matrix_times k y)
      | OPath p => rmap OPath (path_imatmul (path_copy p) y)
      | _ => Err AttributeError
      end
  | OSeg s => match x with OMat _ | OText _ => Some (do c <- seg_copy s; rmap OSeg (seg_imul c x)) | _ => None end
  | OElem _ => Some (Err TypeError)
  | OText _ | OPath _ | ONum _ | ONone => None
  end.
(** x * y for operands not both numbers. *)
Definition mul_op (x y : obj) : Res obj :=
  match mul_l x y with
  | Some r => r
  | None => match mul_r y x with Some r => r | None => Err TypeError end
  end.
(** x *= y: type(x).__imul__, else x * y. The value x has afterwards. list.__imul__ of a Node wants a whole number. *)
Definition imul_op (x y : obj) : Res obj :=
  match x with
  | OMat m => rmap OMat (matrix_times m y)
  | OSeg s => rmap OSeg (seg_imul s y)
  | OElem _ => Err TypeError
  | _ => mul_op x y
  end.
(** x @ y and x @= y: Matrix.__matmul__, __rmatmul__, basic.py:1988-1996; Path.__matmul__, __rmatmul__, path.py:2026-2034. *)
Definition matmul_op (x y : obj) : Res obj :=
  match x with
  | OMat m => rmap OMat (matrix_times m y)
  | OPath p => rmap OPath (path_imatmul (path_copy p) y)
  | _ => match y with OMat _ | OPath _ => Err AttributeError | _ => Err TypeError end
  end.
Definition imatmul_op (x y : obj) : Res obj :=
  match x with
  | OMat m => rmap OMat (matrix_times m y)
  | OPath p => rmap OPath (path_imatmul p y)
  | _ => matmul_op x y
  end.
