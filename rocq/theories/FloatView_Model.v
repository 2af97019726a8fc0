(** viewbox_transform of svgio/basic.py:2587-2688 in binary floating point. Viewbox_Model models it on the rational numbers. *)
Require Import ZArith QArith String List Bool.
From Flocq Require Import Core BinarySingleNaN.
Require Import Verif.Base Verif.Float_Model Verif.Viewbox_Model.
Open Scope Z_scope.

(** Python: x / y. *)
Definition fdivide (x y : fl) : Res fl := if feq y (fz 0) then Err ZeroDivisionError else Ok (fdiv x y).
(** A translation, basic.py:2655-2668, on one axis. [mid] and [max]: whether align asks for them. *)
Definition faxis (mid max : bool) (e el v vl s : fl) : fl :=
  let t := fsub e (fmul v s) in
  let t := if mid then fadd t (fdiv (fsub el (fmul vl s)) (fz 2)) else t in
  if max then fadd t (fsub el (fmul vl s)) else t.
Record fvtrans := mkFvt { ft_sx : fl; ft_sy : fl; ft_tx : fl; ft_ty : fl }.
(** The numbers of viewbox_transform, basic.py:2640-2668. *)
Definition fvb_numbers (ex ey ew eh vx vy vw vh : fl) (aspect : option text) : Res fvtrans :=
  let '(align, ms) := aspect_parts aspect in
  do sx0 <- fdivide ew vw;
  do sy0 <- fdivide eh vh;
  let uni := negb (teqb align (T "none")) in
  let '(sx, sy) :=
    if uni && teqb ms (T "meet") then (fmin sx0 sy0, fmin sx0 sy0)
    else if uni && teqb ms (T "slice") then (fmax sx0 sy0, fmax sx0 sy0)
    else (sx0, sy0) in
  let al := lower align in
  Ok (mkFvt sx sy (faxis (contains (T "xmid") al) (contains (T "xmax") al) ex ew vx vw sx)
        (faxis (contains (T "ymid") al) (contains (T "ymax") al) ey eh vy vh sy)).
(** The rational number that a finite float is. "%.12f" and == look at nothing else. *)
Definition f2q (x : fl) : Q :=
  match x with
  | B754_finite s m e _ =>
      let z := cond_Zopp s (Zpos m) in
      if 0 <=? e then inject_Z (z * 2 ^ e) else z # Z.to_pos (2 ^ - e)
  | _ => 0%Q
  end.
(** viewbox_transform, basic.py:2587-2688. Simplified: numbers that overflow are not printed. *)
Definition fviewbox_transform (ex ey ew eh vx vy vw vh : fl) (aspect : option text) : Res text :=
  do t <- fvb_numbers ex ey ew eh vx vy vw vh aspect;
  if is_finite (ft_sx t) && is_finite (ft_sy t) && is_finite (ft_tx t) && is_finite (ft_ty t)
  then Ok (vt_text (mkVt (f2q (ft_sx t)) (f2q (ft_sy t)) (f2q (ft_tx t)) (f2q (ft_ty t))))
  else Err Unmodelled.
