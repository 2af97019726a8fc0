(** Where SVG puts a viewBox (SVG 1.1 7.8), on the real numbers. One axis at a time: the viewBox interval [v, v + vl] is
    mapped by x -> s x + t towards the viewport interval [e, e + el]. *)
Require Import Reals ZArith.
From Flocq Require Import Core.
Require Import Verif.Float_Model Verif.Float_Spec Verif.Viewbox_Spec.
Open Scope R_scope.

Definition rplaced (a : align) (e el v vl s t : R) : Prop :=
  match a with
  | Min => s * v + t = e
  | Mid => s * (v + vl / 2) + t = e + el / 2
  | Max => s * (v + vl) + t = e + el
  end.
(** The scale that makes the viewBox just fit into, or just cover, the viewport. *)
Definition rfits (f : fit) (ew eh vw vh s : R) : Prop :=
  match f with
  | Meet => s * vw <= ew /\ s * vh <= eh /\ (s * vw = ew \/ s * vh = eh)
  | Slice => ew <= s * vw /\ eh <= s * vh /\ (s * vw = ew \/ s * vh = eh)
  end.
Definition ronto (e el v vl s t : R) : Prop := s * v + t = e /\ s * (v + vl) + t = e + el.
(** Sizes and coordinates that are not extreme. *)
Definition usual (x : fl) : Prop := finite x /\ Rabs (value x) <= bpow radix2 100.
Definition usual_size (x : fl) : Prop := finite x /\ bpow radix2 (-100) <= value x <= bpow radix2 100.
(** A and E put every point of an axis where s and t do, but for the rounding and the 12 printed decimals. *)
Definition puts (e el v vl : fl) (s t A E : R) : Prop := forall p,
  Rabs (A * p + E - (s * p + t)) <=
    20 * bpow radix2 (-53) * (Rabs (value e) + value el + s * (Rabs (value v) + value vl + Rabs p)) + / 2000000000000 * (Rabs p + 1).
