(** Length arithmetic of svgio/basic.py:66-477 in binary floating point. Length_Model models it on the rational numbers;
    Length(text) and str are in FloatText_Model. Literals such as 1.3333 in the code are correctly rounded, as fratio is. *)
Require Import ZArith QArith String List Bool.
From Flocq Require Import Core BinarySingleNaN.
Require Import Verif.Base Verif.Length_Model Verif.Float_Model Verif.FloatView_Model Verif.FloatText_Model.
Import ListNotations.
Open Scope Z_scope.

Definition fpt_px : fl := fratio false 13333 10000.
Definition fmm_in : fl := fratio false 393701 10000000.
Definition fcm_in : fl := fratio false 393701 1000000.
Definition fis0 (x : fl) : bool := feq x (fz 0).
(** __float__, basic.py:66-73. *)
Definition flen_float (l : flength) : fl :=
  match funits l with UPt => fmul (famount l) fpt_px | UPc => fmul (famount l) (fz 16) | _ => famount l end.
(** __iadd__, basic.py:99-161. *)
Definition flen_iadd (s o : flength) : Res flength :=
  let a := famount s in let b := famount o in
  if unit_eqb (funits s) (funits o) then Ok (mkFlen (fadd a b) (funits s))
  else if fis0 a then Ok (mkFlen b (funits o))
  else if fis0 b then Ok s
  else match funits s with
  | UPx | UNone =>
      match funits o with
      | UPx | UNone => Ok (mkFlen (fadd a b) (funits s))
      | UPt => Ok (mkFlen (fadd a (fmul b fpt_px)) (funits s))
      | UPc => Ok (mkFlen (fadd a (fmul b (fz 16))) (funits s))
      | _ => Err ValueError
      end
  | UPt =>
      match funits o with
      | UPx | UNone => Ok (mkFlen (fadd a (fdiv b fpt_px)) UPt)
      | UPc => Ok (mkFlen (fadd a (fmul b (fz 12))) UPt)
      | _ => Err ValueError
      end
  | UPc =>
      match funits o with
      | UPx | UNone => Ok (mkFlen (fadd a (fdiv b (fz 16))) UPc)
      | UPt => Ok (mkFlen (fadd a (fdiv b (fz 12))) UPc)
      | _ => Err ValueError
      end
  | UCm =>
      match funits o with
      | UMm => Ok (mkFlen (fadd a (fdiv b (fz 10))) UCm)
      | UIn => Ok (mkFlen (fadd a (fdiv b fcm_in)) UCm)
      | _ => Err ValueError
      end
  | UMm =>
      match funits o with
      | UCm => Ok (mkFlen (fadd a (fmul b (fz 10))) UMm)
      | UIn => Ok (mkFlen (fadd a (fdiv b fmm_in)) UMm)
      | _ => Err ValueError
      end
  | UIn =>
      match funits o with
      | UCm => Ok (mkFlen (fadd a (fmul b fcm_in)) UIn)
      | UMm => Ok (mkFlen (fadd a (fmul b fmm_in)) UIn)
      | _ => Err ValueError
      end
  | _ => Err ValueError
  end.
(** __neg__, basic.py:264-267; __sub__, basic.py:269-278, for a Length. *)
Definition flen_neg (l : flength) : flength := mkFlen (fneg (famount l)) (funits l).
Definition flen_sub (s o : flength) : Res flength := flen_iadd s (flen_neg o).
(** __lt__, __le__, __gt__, __ge__, basic.py:230-240, for a Length. *)
Definition flen_lt (s o : flength) : Res bool := do d <- flen_sub s o; Ok (flt (famount d) (fz 0)).
Definition flen_le (s o : flength) : Res bool := do d <- flen_sub s o; Ok (fle (famount d) (fz 0)).
Definition flen_gt (s o : flength) : Res bool := do d <- flen_sub s o; Ok (flt (fz 0) (famount d)).
Definition flen_ge (s o : flength) : Res bool := do d <- flen_sub s o; Ok (fle (fz 0) (famount d)).

(** What value() is given, as numbers: ppi, relative_length, font_size, font_height, and the viewbox' width and height. *)
Record fctx := mkFctx { fc_ppi : option fl; fc_rel : option fl; fc_size : option fl; fc_height : option fl; fc_vb : option (fl * fl) }.
Inductive flval := FNumber (x : fl) | FLength (l : flength).
(** value(), basic.py:398-477. *)
Definition fvalue (c : fctx) (l : flength) : flval :=
  let a := famount l in
  match funits l with
  | UPct => match fc_rel c with None => FLength l | Some r => FNumber (fmul (fdiv a (fz 100)) r) end
  | UMm => match fc_ppi c with None => FLength l | Some p => FNumber (fmul (fmul a p) fmm_in) end
  | UCm => match fc_ppi c with None => FLength l | Some p => FNumber (fmul (fmul a p) fcm_in) end
  | UIn => match fc_ppi c with None => FLength l | Some p => FNumber (fmul a p) end
  | UPx | UNone => FNumber a
  | UPt => FNumber (fmul a fpt_px)
  | UPc => FNumber (fmul a (fz 16))
  | UEm => match fc_size c with None => FLength l | Some f => FNumber (fmul a f) end
  | UEx => match fc_height c with None => FLength l | Some f => FNumber (fmul a f) end
  | UVw => match fc_vb c with None => FLength l | Some (w, _) => FNumber (fdiv (fmul a w) (fz 100)) end
  | UVh => match fc_vb c with None => FLength l | Some (_, h) => FNumber (fdiv (fmul a h) (fz 100)) end
  | UVmin => match fc_vb c with None => FLength l | Some (_, h) => FNumber (fdiv (fmul a (fmin h h)) (fz 100)) end
  | UVmax => match fc_vb c with None => FLength l | Some (_, h) => FNumber (fdiv (fmul a (fmax h h)) (fz 100)) end
  | UOther _ => FNumber (flen_float l)
  end.
(** to_mm, to_cm, to_inch, basic.py:344-396. Simplified: a length that cannot be resolved is not divided here (Length_Model.to_unit does). *)
Definition fto_unit (div : fl -> fl) (u : text) (ppi : fl) (c : fctx) (l : flength) : Res flength :=
  match fvalue (mkFctx (Some ppi) (fc_rel c) (fc_size c) (fc_height c) (fc_vb c)) l with
  | FNumber v => do w <- fdivide v (div ppi); Ok (flen_of_text (flength_str w ++ u))
  | FLength _ => Err Unmodelled
  end.
Definition fto_mm := fto_unit (fun ppi => fmul ppi fmm_in) (T "mm").
Definition fto_cm := fto_unit (fun ppi => fmul ppi fcm_in) (T "cm").
Definition fto_inch := fto_unit (fun ppi => ppi) (T "in").
