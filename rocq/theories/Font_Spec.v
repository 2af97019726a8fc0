(** The font shorthand of CSS Fonts 3 (3.7), as far as svgio reads it: keywords in any order, a size of
    digits and a unit, a line height, font families, a generic family. *)
Require Import ZArith QArith Ascii String List Bool.
Require Import Verif.Text_Spec.
Import ListNotations.
Local Open Scope string_scope.

Definition str (s : string) : list ascii := list_ascii_of_string s.
Definition style_words := map str ["italic"; "oblique"].
Definition variant_words := map str ["small-caps"].
Definition weight_words := map str ["bold"; "bolder"; "lighter"].
Definition stretch_words := map str
  ["ultra-condensed"; "extra-condensed"; "condensed"; "semi-condensed"; "semi-expanded"; "expanded"; "extra-expanded"; "ultra-expanded"].
Definition generic_words := map str ["serif"; "sans-serif"; "cursive"; "fantasy"; "monospace"].
Definition size_units := map str ["em"; "pt"; "pc"; "px"; "%"].

Inductive key := KNormal | KStyle (w : list ascii) | KVariant (w : list ascii) | KWeight (w : list ascii)
  | KNumber (a b c : Z) | KStretch (w : list ascii).
Definition key_ok (k : key) : Prop :=
  match k with
  | KNormal => True
  | KStyle w => In w style_words
  | KVariant w => In w variant_words
  | KWeight w => In w weight_words
  | KNumber a b c => is_dig a /\ is_dig b /\ is_dig c
  | KStretch w => In w stretch_words
  end.
Definition key_text (k : key) : list ascii :=
  match k with
  | KNormal => str "normal"
  | KStyle w | KVariant w | KWeight w | KStretch w => w
  | KNumber a b c => dtext [a; b; c]
  end.
(** The number a weight stands for; bolder and lighter depend on the element around. *)
Definition key_weight (k : key) : option (option Z) :=
  match k with
  | KWeight w => Some (if list_eq_dec ascii_dec w (str "bold") then Some 700 else None)%Z
  | KNumber a b c => Some (Some (dval [a; b; c]))
  | _ => None
  end.

(** A size or line height: digits and a unit. *)
Definition size := (list Z * list ascii)%type.
Definition size_ok (s : size) : Prop := Forall is_dig (fst s) /\ fst s <> [] /\ In (snd s) size_units.
Definition size_text (s : size) : list ascii := (dtext (fst s) ++ snd s)%list.

(** Also the white space outside ASCII. *)
Definition blank (c : ascii) : Prop := wsp c \/ In c ["028"; "029"; "030"; "031"; "133"; "160"]%char.

Record shorthand := mkSh {
  sh_keys : list (key * ascii);         (* keywords with the white space behind them *)
  sh_lead : list ascii;                 (* more white space *)
  sh_size : size;
  sh_height : option size;
  sh_gap : list ascii;                  (* white space *)
  sh_face : list ascii;                 (* the families before the last comma *)
  sh_space : ascii;
  sh_generic : list ascii;
  sh_semicolon : bool }.
Definition sh_text (f : shorthand) : list ascii :=
  (flat_map (fun k => key_text (fst k) ++ [snd k]) (sh_keys f) ++ sh_lead f ++ size_text (sh_size f) ++
   match sh_height f with None => [] | Some h => "/"%char :: size_text h end ++
   sh_gap f ++ sh_face f ++ [","%char; sh_space f] ++ sh_generic f ++
   if sh_semicolon f then [";"%char] else [])%list.
Definition sh_ok (f : shorthand) : Prop :=
  Forall (fun k => key_ok (fst k) /\ wsp (snd k)) (sh_keys f) /\ Forall wsp (sh_lead f) /\
  size_ok (sh_size f) /\ match sh_height f with None => True | Some h => size_ok h end /\
  Forall wsp (sh_gap f) /\ sh_gap f <> [] /\
  ~ In "010"%char (sh_face f) /\ (forall c r, sh_face f = c :: r -> ~ blank c) /\
  wsp (sh_space f) /\ In (sh_generic f) generic_words.

(** The last keyword that is a weight. *)
Fixpoint last_weight (l : list (key * ascii)) : option (option Z) :=
  match l with
  | [] => None
  | (k, _) :: l' => match last_weight l' with Some w => Some w | None => key_weight k end
  end.
