(** Specification of instructions that lack numbers. *)
Require Import Ascii String List.
Require Import Verif.Text_Spec Verif.PathText_Spec.
Import ListNotations.

(** Neither a number nor a z follows. *)
Definition barren (u : list ascii) : Prop :=
  forall w r, Forall sepch w -> u = w ++ r -> ~ (exists l v, lit_ok l /\ r = lit_text l ++ v) /\ ~ (exists v, r = "z"%char :: v \/ r = "Z"%char :: v).
(** The first few of the arguments of an instruction, but not all. *)
Definition lacking (a : atom lit) (ts : list tok) : Prop := exists rest, rest <> [] /\ args a = ts ++ rest.
(** The letter that may be left out after some instructions. *)
Definition implied_after (l : list (bool * atom lit)) : option (bool * ascii) :=
  match rev l with [] => None | (rel, a) :: _ => implied rel a end.
(** Text of an instruction without all of its arguments. *)
Inductive short (prev : option (bool * ascii)) : list ascii -> Prop :=
| short_letter rel a ts w v u : Forall sepch w -> lacking a ts -> toks_text ts v u -> barren u ->
    match a with DHor _ | DVer _ => False | DArc _ _ _ _ _ _ => ts <> [] | _ => True end -> short prev (w ++ letter_of rel a :: v)
| short_omit rel a ts v u : may_omit prev rel a -> lacking a ts -> ts <> [] -> toks_text ts v u -> barren u -> short prev v.
