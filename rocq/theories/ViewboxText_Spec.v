(** The viewBox attribute, SVG 2 8.6: numbers separated by white space or a comma (SVG 1.1 4.2, comma-wsp), white space around them. *)
Require Import ZArith QArith Ascii List.
Require Import Verif.Base Verif.Text_Spec.
Import ListNotations.

Definition ws (c : ascii) : Prop := c = " "%char \/ c = "009"%char \/ c = "010"%char \/ c = "013"%char.
Inductive comma_wsp : text -> Prop :=
| cw_space c s : ws c -> Forall ws s -> comma_wsp (c :: s)
| cw_comma s t : Forall ws s -> Forall ws t -> comma_wsp (s ++ ","%char :: t).
(** A list of numbers, each as written. *)
Inductive numbers : list lit -> text -> Prop :=
| nums_one l : lit_ok l -> numbers [l] (lit_text l)
| nums_more l s r t : lit_ok l -> comma_wsp s -> numbers r t -> numbers (l :: r) (lit_text l ++ s ++ t).
(** The attribute, with any number of numbers. *)
Definition attribute (ls : list lit) (t : text) : Prop :=
  exists a b c, t = (a ++ b ++ c)%list /\ Forall ws a /\ Forall ws c /\ ((ls = [] /\ b = []) \/ numbers ls b).
