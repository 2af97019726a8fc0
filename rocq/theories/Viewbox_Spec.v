(** Independent specification of preserveAspectRatio (SVG 1.1 7.8). One axis at a time: the viewBox
    interval [v, v + vl] is mapped by x -> s x + t towards the viewport interval [e, e + el]. *)
Require Import QArith String Ascii List.
Require Import Verif.Base.
Import ListNotations.
Open Scope Q_scope.

Inductive align := Min | Mid | Max.
Inductive fit := Meet | Slice.
Definition align_text (a : align) : text := match a with Min => T "Min" | Mid => T "Mid" | Max => T "Max" end.
(** The attribute text: alignment, then possibly meet or slice; the attribute may be absent. *)
Inductive par_text : align -> align -> fit -> option text -> Prop :=
| par_absent : par_text Mid Mid Meet None
| par_align : forall a b, par_text a b Meet (Some (T "x" ++ align_text a ++ T "Y" ++ align_text b))
| par_meet : forall a b, par_text a b Meet (Some (T "x" ++ align_text a ++ T "Y" ++ align_text b ++ T " meet"))
| par_slice : forall a b, par_text a b Slice (Some (T "x" ++ align_text a ++ T "Y" ++ align_text b ++ T " slice")).

(** The image of the viewBox interval is placed as [a] says. *)
Definition placed (a : align) (e el v vl s t : Q) : Prop :=
  match a with
  | Min => s * v + t == e
  | Mid => s * (v + vl / 2) + t == e + el / 2
  | Max => s * (v + vl) + t == e + el
  end.
Definition inside (e el v vl s t : Q) : Prop := e <= s * v + t /\ s * (v + vl) + t <= e + el.
Definition covers (e el v vl s t : Q) : Prop := s * v + t <= e /\ e + el <= s * (v + vl) + t.
Definition onto (e el v vl s t : Q) : Prop := s * v + t == e /\ s * (v + vl) + t == e + el.
