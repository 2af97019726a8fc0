(** What floating point results should be. *)
Require Import ZArith Reals List Bool.
From Flocq Require Import Core BinarySingleNaN.
Require Import Verif.Point_Model Verif.Curve_Spec Verif.Float_Model.
Open Scope R_scope.

(** A float that is neither infinite nor NaN, and its value. *)
Definition finite (x : fl) : Prop := is_finite x = true.
Definition value (x : fl) : R := B2R x.
(** x is the number v. *)
Definition is (x : fl) (v : R) : Prop := finite x /\ value x = v.
Definition finite_pt (p : fpt) : Prop := finite (fx p) /\ finite (fy p).
Definition place (p : fpt) : pt := P (value (fx p)) (value (fy p)).
Definition is_pt (p : fpt) (q : pt) : Prop := is (fx p) (px q) /\ is (fy p) (py q).
(** Numbers up to [M] in size. *)
Definition within (M : R) (p : fpt) : Prop := finite_pt p /\ Rabs (value (fx p)) <= M /\ Rabs (value (fy p)) <= M.
(** x is v but for an error of at most e. *)
Definition about (x : fl) (v e : R) : Prop := finite x /\ Rabs (value x - v) <= e.
Definition about_pt (p : fpt) (q : pt) (e : R) : Prop := about (fx p) (px q) e /\ about (fy p) (py q) e.

(** What is asked of ** on [0,1]: right at 0 and 1, and an error of at most two units in the last place. *)
Definition good_pow (pow : fl -> Z -> fl) : Prop :=
  forall x n, finite x -> 0 <= value x <= 1 -> (n = 2 \/ n = 3)%Z ->
    finite (pow x n) /\ 0 <= value (pow x n) <= 1 /\ Rabs (value (pow x n) - powerRZ (value x) n) <= 2 * bpow radix2 (-52) /\
    (value x = 0 -> value (pow x n) = 0) /\ (value x = 1 -> value (pow x n) = 1).

(** The points of a segment, and its ends and controls. *)
Definition exact_point (s : fseg) (t : R) : pt :=
  match s with
  | FLine a b => mix t (place a) (place b)
  | FQuad a c b => casteljau2 (place a) (place c) (place b) t
  | FCubic a c d b => casteljau3 (place a) (place c) (place d) (place b) t
  end.
Definition controls (s : fseg) : list fpt :=
  match s with FLine a b => a :: b :: nil | FQuad a c b => a :: c :: b :: nil | FCubic a c d b => a :: c :: d :: b :: nil end.
Definition seg_start (s : fseg) : fpt := match s with FLine a _ | FQuad a _ _ | FCubic a _ _ _ => a end.
Definition seg_end (s : fseg) : fpt := match s with FLine _ b | FQuad _ _ b | FCubic _ _ _ b => b end.

(** The curve of one axis, from the points of the segment. *)
Definition extent (s : fseg) (axis : pt -> R) (lo hi : R) (e : R) : Prop :=
  (forall t, 0 <= t <= 1 -> lo - e <= axis (exact_point s t) <= hi + e) /\
  (exists t, 0 <= t <= 1 /\ Rabs (lo - axis (exact_point s t)) <= e) /\ (exists t, 0 <= t <= 1 /\ Rabs (hi - axis (exact_point s t)) <= e).

(** Matrices. *)
Definition finite_mx (m : fmx) : Prop := finite (fma m) /\ finite (fmb m) /\ finite (fmc m) /\ finite (fmd m) /\ finite (fme m) /\ finite (fmf m).
(** The image of (x, y), and the sizes of what is added up for it. *)
Definition image (m : fmx) (p : pt) : pt :=
  P (value (fma m) * px p + value (fmc m) * py p + value (fme m)) (value (fmb m) * px p + value (fmd m) * py p + value (fmf m)).
Definition sizes (m : fmx) (p : pt) (S : R) : Prop :=
  Rabs (value (fma m) * px p) + Rabs (value (fmc m) * py p) + Rabs (value (fme m)) <= S /\
  Rabs (value (fmb m) * px p) + Rabs (value (fmd m) * py p) + Rabs (value (fmf m)) <= S.
(** x is an integer of at most N. *)
Definition whole (N : Z) (x : fl) : Prop := exists z : Z, is x (IZR z) /\ (Z.abs z <= N)%Z.
Definition whole_pt (N : Z) (p : fpt) : Prop := whole N (fx p) /\ whole N (fy p).
Definition whole_mx (N : Z) (m : fmx) : Prop := whole N (fma m) /\ whole N (fmb m) /\ whole N (fmc m) /\ whole N (fmd m) /\ whole N (fme m) /\ whole N (fmf m).

(** Where relative steps lead. *)
Definition moved (p : pt) (steps : list fpt) : pt :=
  List.fold_right (fun s q => P (px q + value (fx s)) (py q + value (fy s))) p steps.
