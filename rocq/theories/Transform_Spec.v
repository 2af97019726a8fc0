(** Independent specification of SVG transform lists: their text and what they denote. *)
Require Import ZArith QArith Qreals Reals Ascii String List.
Require Import Verif.Base Verif.Text_Spec Verif.Angle_Spec Verif.Matrix_Spec.
Import ListNotations.
Open Scope R_scope.

(** Separators: white space and commas. *)
Definition sepc (c : ascii) : Prop := wsp c \/ c = ","%char.
(** A parameter: a decimal literal followed by a unit in any letter case. *)
Record param := mkParam { p_lit : lit; p_unit : text }.
Definition param_text (p : param) : text := lit_text (p_lit p) ++ p_unit p.
(** Parameters separated by white space and commas; the separator may be left out before a sign. *)
Inductive params_text : list param -> text -> Prop :=
| pt_one : forall p w, Forall sepc w -> params_text [p] (param_text p ++ w)
| pt_cons : forall p q ps w s, Forall sepc w -> (w <> [] \/ l_sgn (p_lit q) <> SNone) ->
    params_text (q :: ps) s -> params_text (p :: q :: ps) (param_text p ++ w ++ s).

(** What a parameter denotes: a number, a distance in user units, or an angle in radians. *)
Inductive is_num : param -> R -> Prop :=
| num_of : forall p, lit_ok (p_lit p) -> p_unit p = [] -> is_num p (Q2R (lit_val (p_lit p))).
Inductive is_dist : param -> R -> Prop :=
| dist_of : forall p, lit_ok (p_lit p) -> lower (p_unit p) = T "" \/ lower (p_unit p) = T "px" -> is_dist p (Q2R (lit_val (p_lit p)))
| dist_pc : forall p, lit_ok (p_lit p) -> lower (p_unit p) = T "pc" -> is_dist p (16 * Q2R (lit_val (p_lit p))).
Inductive is_angle : param -> R -> Prop :=
| angle_of : forall p u n, lit_ok (p_lit p) -> circle u n -> lower (p_unit p) = T u ->
    is_angle p (2 * PI * (Q2R (lit_val (p_lit p)) / n)).

(** SVG 1.1 7.6 and CSS Transforms: the map each transform function denotes. *)
Inductive denotes : string -> list param -> (plane -> plane) -> Prop :=
| d_matrix : forall pa pb pc pd pe pf a b c d e f,
    is_num pa a -> is_num pb b -> is_num pc c -> is_num pd d -> is_num pe e -> is_num pf f ->
    denotes "matrix" [pa; pb; pc; pd; pe; pf] (fun p => (a * fst p + c * snd p + e, b * fst p + d * snd p + f))
| d_translate1 : forall px tx, is_dist px tx -> denotes "translate" [px] (sp_translate tx 0)
| d_translate : forall px py tx ty, is_dist px tx -> is_dist py ty -> denotes "translate" [px; py] (sp_translate tx ty)
| d_translatex : forall px tx, is_dist px tx -> denotes "translatex" [px] (sp_translate tx 0)
| d_translatey : forall py ty, is_dist py ty -> denotes "translatey" [py] (sp_translate 0 ty)
| d_scale1 : forall ps s, is_num ps s -> denotes "scale" [ps] (sp_scale s s)
| d_scale : forall px py sx sy, is_num px sx -> is_num py sy -> denotes "scale" [px; py] (sp_scale sx sy)
| d_scalex : forall px sx, is_num px sx -> denotes "scalex" [px] (sp_scale sx 1)
| d_scaley : forall py sy, is_num py sy -> denotes "scaley" [py] (sp_scale 1 sy)
| d_rotate1 : forall pa a, is_angle pa a -> denotes "rotate" [pa] (sp_rotate a)
| d_rotate : forall pa px py a x y, is_angle pa a -> is_dist px x -> is_dist py y ->
    denotes "rotate" [pa; px; py] (sp_about x y (sp_rotate a))
| d_skewx : forall pa a, is_angle pa a -> denotes "skewx" [pa] (sp_skew a 0)
| d_skewy : forall pa a, is_angle pa a -> denotes "skewy" [pa] (sp_skew 0 a)
| d_skew : forall pa pb a b, is_angle pa a -> is_angle pb b -> denotes "skew" [pa; pb] (sp_skew a b).

(** A transform function in text: name in any letter case, white space, parenthesised parameters. *)
Inductive func_text : string -> list param -> text -> Prop :=
| ft : forall nm ps n w w1 s, lower n = T nm -> Forall wsp w -> Forall sepc w1 -> params_text ps s ->
    func_text nm ps (n ++ w ++ "("%char :: w1 ++ s ++ [")"%char]).
(** A transform list in text and the map it denotes: the rightmost function acts first. *)
Inductive tlist : text -> (plane -> plane) -> Prop :=
| tl_nil : forall w, Forall sepc w -> tlist w (fun p => p)
| tl_cons : forall w nm ps s f rest g, Forall sepc w -> func_text nm ps s -> denotes nm ps f -> tlist rest g ->
    tlist (w ++ s ++ rest) (fun p => f (g p)).
