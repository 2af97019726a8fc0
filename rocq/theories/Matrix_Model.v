(** Matrix of svgio/basic.py:1911-2517 on the reals, without text (Transform_Model.v). The entries e, f
    are numbers here; the code also lets them be an unresolved Length for a while. *)
Require Import Reals List.
Require Import Verif.Base Verif.Angle_Model Verif.Point_Model.
Import ListNotations.
Open Scope R_scope.

Record mx := M { ma : R; mb : R; mc : R; md : R; me : R; mf : R }.

(** Matrix() and identity(), basic.py:1926-1936, 2487-2493. *)
Definition ident : mx := M 1 0 0 1 0 0.
(** Matrix(components) for numbers, basic.py:1933-1955: none, one (not subscriptable), six or more. *)
Definition mx_of (l : list R) : Res mx :=
  match l with
  | [] => Ok ident
  | [_] => Err TypeError
  | a :: b :: c :: d :: e :: f :: _ => Ok (M a b c d e f)
  | _ => Err IndexError
  end.

(** matrix_multiply(m, s), basic.py:2495-2517. *)
Definition mul (m s : mx) : mx :=
  M (ma s * ma m + mc s * mb m + me s * 0)
    (mb s * ma m + md s * mb m + mf s * 0)
    (ma s * mc m + mc s * md m + me s * 0)
    (mb s * mc m + md s * md m + mf s * 0)
    (ma s * me m + mc s * mf m + me s * 1)
    (mb s * me m + md s * mf m + mf s * 1).
(** a * b and a @ b, basic.py:1988-2008. *)
Definition matmul (a b : mx) : mx := mul a b.

(** determinant, basic.py:2205-2206. *)
Definition det (m : mx) : R := ma m * md m - mc m * mb m.
(** inverse and ~m, basic.py:1984-1986, 2237-2258. *)
Definition inverse (m : mx) : Res mx :=
  if Req_EM_T (det m) 0 then Err ZeroDivisionError
  else
    let i := 1 / det m in
    Ok (M (md m * i) (- mb m * i) (- mc m * i) (ma m * i)
          ((mc m * mf m - me m * md m) * i) ((mb m * me m - ma m * mf m) * i)).
(** vector, basic.py:2260-2267. *)
Definition vector (m : mx) : mx := M (ma m) (mb m) (mc m) (md m) 0 0.
(** is_identity, basic.py:2269-2277. *)
Definition is_identity (m : mx) : Prop := ma m = 1 /\ mb m = 0 /\ mc m = 0 /\ md m = 1 /\ me m = 0 /\ mf m = 0.

(** scale, scale_x, scale_y, translate, translate_x, translate_y, rotate, skew, skew_x, skew_y,
    basic.py:2437-2485. *)
Definition m_scale (sx : R) (sy : option R) : mx := M sx 0 0 (match sy with Some v => v | None => sx end) 0 0.
Definition m_scale_x (sx : R) : mx := m_scale sx (Some 1).
Definition m_scale_y (sy : R) : mx := m_scale 1 (Some sy).
Definition m_translate (tx ty : R) : mx := M 1 0 0 1 tx ty.
Definition m_translate_x (tx : R) : mx := m_translate tx 0.
Definition m_translate_y (ty : R) : mx := m_translate 0 ty.
Definition m_rotate (a : R) : mx := M (cos a) (sin a) (- sin a) (cos a) 0 0.
Definition m_skew (a b : R) : mx := M 1 (tan b) (tan a) 1 0 0.
Definition m_skew_x (a : R) : mx := m_skew a 0.
Definition m_skew_y (a : R) : mx := m_skew 0 a.

(** An optional centre coordinate: omitted and None both mean 0. *)
Definition c0 (x : option R) : R := match x with Some v => v | None => 0 end.
Definition at0 (x y : R) : {x = 0 /\ y = 0} + {~ (x = 0 /\ y = 0)}.
Proof. destruct (Req_EM_T x 0); [destruct (Req_EM_T y 0)|]; [left|right|right]; intuition. Defined.

(** post_cat and the post_ operations, basic.py:2279-2342. *)
Definition post_cat (m x : mx) : mx := mul m x.
Definition post_translate (m : mx) (tx ty : R) : mx := post_cat m (m_translate tx ty).
Definition post_translate_x (m : mx) (tx : R) : mx := post_translate m tx 0.
Definition post_translate_y (m : mx) (ty : R) : mx := post_translate m 0 ty.
Definition post_scale (m : mx) (sx : R) (sy : option R) (x y : option R) : mx :=
  let s := match sy with Some v => v | None => sx end in
  if at0 (c0 x) (c0 y) then post_cat m (m_scale sx (Some s))
  else post_translate (post_cat (post_translate m (- c0 x) (- c0 y)) (m_scale sx (Some s))) (c0 x) (c0 y).
Definition post_scale_x (m : mx) (sx : R) (x y : option R) : mx := post_scale m sx (Some 1) x y.
Definition post_scale_y (m : mx) (sy : R) (x y : option R) : mx := post_scale m 1 (Some sy) x y.
Definition post_rotate (m : mx) (a : R) (x y : option R) : mx :=
  if at0 (c0 x) (c0 y) then post_cat m (m_rotate a)
  else post_cat m (post_translate (post_cat (post_translate ident (- c0 x) (- c0 y)) (m_rotate a)) (c0 x) (c0 y)).
Definition post_skew (m : mx) (a b : R) (x y : option R) : mx :=
  if at0 (c0 x) (c0 y) then post_cat m (m_skew a b)
  else post_translate (post_cat (post_translate m (- c0 x) (- c0 y)) (m_skew a b)) (c0 x) (c0 y).
Definition post_skew_x (m : mx) (a : R) (x y : option R) : mx := post_skew m a 0 x y.
Definition post_skew_y (m : mx) (b : R) (x y : option R) : mx := post_skew m 0 b x y.

(** pre_cat and the pre_ operations, basic.py:2344-2407. *)
Definition pre_cat (m x : mx) : mx := mul x m.
Definition pre_translate (m : mx) (tx ty : R) : mx := pre_cat m (m_translate tx ty).
Definition pre_translate_x (m : mx) (tx : R) : mx := pre_translate m tx 0.
Definition pre_translate_y (m : mx) (ty : R) : mx := pre_translate m 0 ty.
Definition pre_scale (m : mx) (sx : R) (sy : option R) (x y : option R) : mx :=
  let s := match sy with Some v => v | None => sx end in
  if at0 (c0 x) (c0 y) then pre_cat m (m_scale sx (Some s))
  else pre_translate (pre_cat (pre_translate m (c0 x) (c0 y)) (m_scale sx (Some s))) (- c0 x) (- c0 y).
Definition pre_scale_x (m : mx) (sx : R) (x y : option R) : mx := pre_scale m sx (Some 1) x y.
Definition pre_scale_y (m : mx) (sy : R) (x y : option R) : mx := pre_scale m 1 (Some sy) x y.
Definition pre_rotate (m : mx) (a : R) (x y : option R) : mx :=
  if at0 (c0 x) (c0 y) then pre_cat m (m_rotate a)
  else pre_translate (pre_cat (pre_translate m (c0 x) (c0 y)) (m_rotate a)) (- c0 x) (- c0 y).
Definition pre_skew (m : mx) (a b : R) (x y : option R) : mx :=
  if at0 (c0 x) (c0 y) then pre_cat m (m_skew a b)
  else pre_translate (pre_cat (pre_translate m (c0 x) (c0 y)) (m_skew a b)) (- c0 x) (- c0 y).
Definition pre_skew_x (m : mx) (a : R) (x y : option R) : mx := pre_skew m a 0 x y.
Definition pre_skew_y (m : mx) (b : R) (x y : option R) : mx := pre_skew m 0 b x y.

(** point_in_matrix_space, transform_point and Point * Matrix, basic.py:2414-2425, 1537-1557. *)
Definition apply_mx (m : mx) (p : pt) : pt :=
  P (px p * ma m + py p * mc m + 1 * me m) (px p * mb m + py p * md m + 1 * mf m).
(** transform_vector, basic.py:2427-2435. *)
Definition apply_vec (m : mx) (p : pt) : pt := P (px p * ma m + py p * mc m) (px p * mb m + py p * md m).
(** point_in_inverse_space, basic.py:2409-2412. *)
Definition apply_inverse (m : mx) (p : pt) : Res pt := do i <- inverse m; Ok (apply_mx i p).

(** __eq__ between matrices, basic.py:1960-1977. *)
Definition mx_eq (a b : mx) : Prop :=
  Rabs (ma a - ma b) <= / 10 ^ 12 /\ Rabs (mb a - mb b) <= / 10 ^ 12 /\ Rabs (mc a - mc b) <= / 10 ^ 12 /\
  Rabs (md a - md b) <= / 10 ^ 12 /\
  (me a = me b \/ Rabs (me a - me b) <= / 10 ^ 12) /\ (mf a = mf b \/ Rabs (mf a - mf b) <= / 10 ^ 12).
