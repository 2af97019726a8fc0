(** Points, matrices, curves and colours of basic.py and path.py in binary floating point, as Python computes: IEEE 754
    binary64, every operation rounded to nearest, ties to even. *)
Require Import ZArith List Bool.
From Flocq Require Import Core BinarySingleNaN.
Import ListNotations.
Open Scope Z_scope.

(** Python's float and its operators; these are not specific to /repo. An int that meets a float is converted. *)
Definition fl : Type := binary_float 53 1024.
Definition p53 : Prec_gt_0 53 := eq_refl.
Definition p1024 : Prec_lt_emax 53 1024 := eq_refl.
Definition fz (z : Z) : fl := binary_normalize 53 1024 p53 p1024 mode_NE z 0 false.
Definition fadd (x y : fl) : fl := @Bplus 53 1024 p53 p1024 mode_NE x y.
Definition fsub (x y : fl) : fl := @Bminus 53 1024 p53 p1024 mode_NE x y.
Definition fmul (x y : fl) : fl := @Bmult 53 1024 p53 p1024 mode_NE x y.
Definition fdiv (x y : fl) : fl := @Bdiv 53 1024 p53 p1024 mode_NE x y.
Definition fneg (x : fl) : fl := Bopp x.
Definition fabs (x : fl) : fl := Babs x.
Definition flt (x y : fl) : bool := Bltb x y.
Definition fle (x y : fl) : bool := Bleb x y.
Definition feq (x y : fl) : bool := Beqb x y.
(** min(a, b) and max(a, b): the first unless the second is strictly smaller or larger. *)
Definition fmin (a b : fl) : fl := if flt b a then b else a.
Definition fmax (a b : fl) : fl := if flt a b then b else a.

Record fpt := FP { fx : fl; fy : fl }.
(** Point.towards, basic.py:1825-1829. *)
Definition ftowards1 (a b t : fl) : fl := fadd (fmul t (fsub b a)) a.
(** numpy.interp(t, [0, 1], [a, b]), numpy's compiled_base.c: the ends are returned as they are, between them the slope,
    (b - a) / (1 - 0), is multiplied by t - 0 and a is added. *)
Definition finterp (a b t : fl) : fl :=
  if fle t (fz 0) then a else if fle (fz 1) t then b else fadd (fmul (fdiv (fsub b a) (fz 1)) (fsub t (fz 0))) a.
Section Pow.
  (** x ** n: the pow of the C library, or of numpy. *)
  Variable pow : fl -> Z -> fl.
  (** _compute_point of a quadratic curve, path.py:816-826, on one axis. *)
  Definition fquad1 (x0 x1 x2 t : fl) : fl :=
    let n_pos := fsub (fz 1) t in
    let pos_2 := pow t 2 in
    let n_pos_2 := pow n_pos 2 in
    let n_pos_pos := fmul n_pos t in
    fadd (fadd (fmul n_pos_2 x0) (fmul (fmul (fz 2) n_pos_pos) x1)) (fmul pos_2 x2).
  (** _compute_point of a cubic curve, path.py:1014-1024, on one axis. *)
  Definition fcubic1 (x0 x1 x2 x3 t : fl) : fl :=
    let pos_3 := pow t 3 in
    let n_pos := fsub (fz 1) t in
    let n_pos_3 := pow n_pos 3 in
    let pos_2_n_pos := fmul (fmul t t) n_pos in
    let n_pos_2_pos := fmul (fmul n_pos n_pos) t in
    fadd (fadd (fmul n_pos_3 x0) (fmul (fz 3) (fadd (fmul n_pos_2_pos x1) (fmul pos_2_n_pos x2)))) (fmul pos_3 x3).
  (** The segments and their points, path.py:477-483, 660-669, 809-835, 1006-1033. [np]: numpy can be imported. *)
  Inductive fseg := FLine (a b : fpt) | FQuad (a c b : fpt) | FCubic (a c d b : fpt).
  Definition flin1 (np : bool) (a b t : fl) : fl := if np then finterp a b t else ftowards1 a b t.
  Definition fpoint (np : bool) (s : fseg) (t : fl) : fpt :=
    match s with
    | FLine a b => FP (flin1 np (fx a) (fx b) t) (flin1 np (fy a) (fy b) t)
    | FQuad a c b => FP (fquad1 (fx a) (fx c) (fx b) t) (fquad1 (fy a) (fy c) (fy b) t)
    | FCubic a c d b => FP (fcubic1 (fx a) (fx c) (fx d) (fx b) t) (fcubic1 (fy a) (fy c) (fy d) (fy b) t)
    end.
  (** QuadraticBezier.bbox, path.py:837-861, on one axis. *)
  Definition fquad_range (x0 x1 x2 : fl) : fl * fl :=
    let n := fsub x0 x1 in
    let d := fadd (fsub x0 (fmul (fz 2) x1)) x2 in
    let t := if negb (feq d (fz 0)) then fdiv n d else fdiv (fz 1) (fz 2) in
    if flt (fz 0) t && flt t (fz 1)
    then let v := fquad1 x0 x1 x2 t in (fmin (fmin x0 x2) v, fmax (fmax x0 x2) v)
    else (fmin x0 x2, fmax x0 x2).
End Pow.
(** PathSegment.bbox, path.py:457-468, of a line, on one axis. *)
Definition fline_range (a b : fl) : fl * fl := (fmin a b, fmax a b).

(** Matrix.point_in_matrix_space, basic.py:2414-2418. *)
Record fmx := FM { fma : fl; fmb : fl; fmc : fl; fmd : fl; fme : fl; fmf : fl }.
Definition fapply (m : fmx) (p : fpt) : fpt :=
  FP (fadd (fadd (fmul (fx p) (fma m)) (fmul (fy p) (fmc m))) (fmul (fz 1) (fme m)))
     (fadd (fadd (fmul (fx p) (fmb m)) (fmul (fy p) (fmd m))) (fmul (fz 1) (fmf m))).
(** Matrix.matrix_multiply, basic.py:2492-2517. *)
Definition fmul_mx (m s : fmx) : fmx :=
  let dot a b c d e k := fadd (fadd (fmul a b) (fmul c d)) (fmul e (fz k)) in
  FM (dot (fma s) (fma m) (fmc s) (fmb m) (fme s) 0) (dot (fmb s) (fma m) (fmd s) (fmb m) (fmf s) 0)
     (dot (fma s) (fmc m) (fmc s) (fmd m) (fme s) 0) (dot (fmb s) (fmc m) (fmd s) (fmd m) (fmf s) 0)
     (dot (fma s) (fme m) (fmc s) (fmf m) (fme s) 1) (dot (fmb s) (fme m) (fmd s) (fmf m) (fmf s) 1).
(** ERROR = 1e-12, constants.py:6, as the float nearest to it, and Point.__eq__, basic.py:1484-1493. *)
Definition ferror : fl := binary_normalize 53 1024 p53 p1024 mode_NE 4951760157141521 (-92) false.
Definition fpt_eq (p q : fpt) : bool := fle (fabs (fsub (fx p) (fx q))) ferror && fle (fabs (fsub (fy p) (fy q))) ferror.
(** Matrix.inverse, basic.py:2237-2259. A determinant that is zero raises ZeroDivisionError. *)
Definition finverse (m : fmx) : option fmx :=
  let det := fsub (fmul (fma m) (fmd m)) (fmul (fmc m) (fmb m)) in
  if feq det (fz 0) then None else
  let i := fdiv (fz 1) det in
  Some (FM (fmul (fmd m) i) (fmul (fneg (fmb m)) i) (fmul (fneg (fmc m)) i) (fmul (fma m) i)
           (fmul (fsub (fmul (fmc m) (fmf m)) (fmul (fme m) (fmd m))) i) (fmul (fsub (fmul (fmb m) (fme m)) (fmul (fma m) (fmf m))) i)).

(** _rcoord, path.py:95-102, of a path with a current point, and the current point after the relative line commands of
    [steps], path.py:137-146 with Path.line, path.py:2453-2463: the current point is the end of the last segment. *)
Definition frcoord (position current_pos : fpt) : fpt := FP (fadd (fx position) (fx current_pos)) (fadd (fy position) (fy current_pos)).
Definition fpen (start : fpt) (steps : list fpt) : fpt := fold_left (fun pos step => frcoord step pos) steps start.

(** int(round(x)) of a finite x, and what opacity reads and writes, basic.py:1127-1137; also Color(r, g, b, a),
    basic.py:533-538, with rgb_to_int, basic.py:612-621, whose bounds on the opacity change nothing here unless they cut. *)
Definition fround (x : fl) : Z := Btrunc (@Bnearbyint 53 1024 p1024 mode_NE x).
Definition fcrimp (z : Z) : Z := if 255 <? z then 255 else if z <? 0 then 0 else z.
Definition fget_opacity (alpha : Z) : fl := fdiv (fz alpha) (fz 255).
Definition fset_opacity (o : fl) : Z := fcrimp (fround (fmul o (fz 255))).
Definition frgb_alpha (a : fl) : Z :=
  let o := fdiv a (fz 255) in
  let o := if flt (fz 1) o then fz 1 else o in
  let o := if flt o (fz 0) then fz 0 else o in
  fcrimp (fround (fmul o (fz 255))).
