(** What Length arithmetic in floating point should give. *)
Require Import ZArith Reals List Bool.
From Flocq Require Import Core BinarySingleNaN.
Require Import Verif.Base Verif.Length_Model Verif.Float_Model Verif.Float_Spec Verif.FloatText_Model Verif.FloatLength_Model.
Open Scope R_scope.

(** The unit roundoff. *)
Definition roundoff : R := bpow radix2 (-53).
(** A number that is zero or neither very large nor very small. *)
Definition moderate_r (r : R) : Prop := r = 0 \/ bpow radix2 (-300) <= Rabs r <= bpow radix2 300.
Definition moderate (x : fl) : Prop := finite x /\ moderate_r (value x).
Definition moderate_opt (o : option fl) : Prop := match o with Some x => moderate x | None => True end.
Definition moderate_ctx (c : fctx) : Prop :=
  moderate_opt (fc_ppi c) /\ moderate_opt (fc_rel c) /\ moderate_opt (fc_size c) /\ moderate_opt (fc_height c) /\
  match fc_vb c with Some (w, h) => moderate w /\ moderate h | None => True end.

(** The numbers of user units in one unit of length, with svgio's figures of 1.3333 for a point and 0.0393701 inches for a millimetre;
    none if it depends on something not given. *)
Definition times (k : R) (o : option fl) : option R := match o with Some x => Some (k * value x) | None => None end.
Definition pixels_in (c : fctx) (u : lunit) : option R :=
  match u with
  | UPct => times (1 / 100) (fc_rel c)
  | UIn => times 1 (fc_ppi c)
  | UCm => times (393701 / 1000000) (fc_ppi c)
  | UMm => times (393701 / 10000000) (fc_ppi c)
  | UPx | UNone | UOther _ => Some 1
  | UPt => Some (13333 / 10000)
  | UPc => Some 16
  | UEm => times 1 (fc_size c)
  | UEx => times 1 (fc_height c)
  | UVw => match fc_vb c with Some (w, _) => Some (value w / 100) | None => None end
  | UVh | UVmin | UVmax => match fc_vb c with Some (_, h) => Some (value h / 100) | None => None end
  end.
(** The number of units of the first kind in one of the second; none if they do not compare. *)
Definition screen (u : lunit) : option R := match u with UPx | UNone => Some 1 | UPt => Some (13333 / 10000) | _ => None end.
Definition print (u : lunit) : option R := match u with UPt => Some 1 | UPc => Some 12 | _ => None end.
Definition paper (u : lunit) : option R := match u with UIn => Some 1 | UCm => Some (393701 / 1000000) | UMm => Some (393701 / 10000000) | _ => None end.
Definition picas (u : lunit) : option R := match u with UPx | UNone => Some 1 | UPc => Some 16 | _ => None end.
Definition ratio (f : lunit -> option R) (s o : lunit) : option R := match f s, f o with Some a, Some b => Some (b / a) | _, _ => None end.
Definition units_in (s o : lunit) : option R :=
  if unit_eqb s o then Some 1 else
  match ratio screen s o with Some k => Some k | None =>
  match ratio picas s o with Some k => Some k | None =>
  match ratio print s o with Some k => Some k | None => ratio paper s o end end end.
(** One of the ways to compare, right for numbers x and y. *)
Inductive cmp := Lt | Le | Gt | Ge.
Definition holds (c : cmp) (x y : R) : Prop := match c with Lt => x < y | Le => x <= y | Gt => y < x | Ge => y <= x end.
Definition flen_cmp (c : cmp) : flength -> flength -> Res bool := match c with Lt => flen_lt | Le => flen_le | Gt => flen_gt | Ge => flen_ge end.
Definition answers (r : Res bool) (p : Prop) : Prop := exists b, r = Ok b /\ (b = true <-> p).
(** The units to_mm, to_cm and to_inch convert to. *)
Inductive target := Mm | Cm | Inch.
Definition target_unit (t : target) : lunit := match t with Mm => UMm | Cm => UCm | Inch => UIn end.
Definition fconvert (t : target) : fl -> fctx -> flength -> Res flength := match t with Mm => fto_mm | Cm => fto_cm | Inch => fto_inch end.
Definition at_ppi (ppi : fl) (c : fctx) : fctx := mkFctx (Some ppi) (fc_rel c) (fc_size c) (fc_height c) (fc_vb c).
