(** Independent specification of transform lists whose distances have units. *)
Require Import QArith Qreals Reals Ascii String List.
Require Import Verif.Base Verif.Text_Spec Verif.Angle_Spec Verif.Matrix_Spec Verif.Transform_Spec.
Import ListNotations.
Open Scope R_scope.

(** What is known when lengths are resolved: pixels per inch, font size, sides of the viewbox, width and height that
    percentages refer to. *)
Record known := mkKnown { k_ppi : option R; k_font : option R; k_vb : option (R * R); k_w : option R; k_h : option R }.
(** How many user units one of each unit is; inch to centimetre and point to pixel with the constants of Length (C14 says how
    exact they are). Percentages of a distance in no particular direction need a square. *)
Inductive unit_px (k : known) : text -> R -> Prop :=
| up_none : unit_px k (T "") 1
| up_px : unit_px k (T "px") 1
| up_pc : unit_px k (T "pc") 16
| up_pt : unit_px k (T "pt") 1.3333
| up_in : forall p, k_ppi k = Some p -> unit_px k (T "in") p
| up_cm : forall p, k_ppi k = Some p -> unit_px k (T "cm") (p * 0.393701)
| up_mm : forall p, k_ppi k = Some p -> unit_px k (T "mm") (p * 0.0393701)
| up_em : forall s, k_font k = Some s -> unit_px k (T "em") s
| up_vw : forall w h, k_vb k = Some (w, h) -> unit_px k (T "vw") (w / 100)
| up_vh : forall w h, k_vb k = Some (w, h) -> unit_px k (T "vh") (h / 100)
| up_pct : forall r, k_w k = Some r -> k_h k = Some r -> unit_px k (T "%") (r / 100).
(** A parameter as a distance in user units. *)
Definition resolved (k : known) (p : param) (d : R) : Prop :=
  lit_ok (p_lit p) /\ exists u, unit_px k (lower (p_unit p)) u /\ d = Q2R (lit_val (p_lit p)) * u.

(** The map a transform function denotes, where [D] and [N] say which distances and which numbers (in matrix()) are meant. *)
Inductive denotes_by (D : param -> R -> Prop) (N : R -> Prop) : string -> list param -> (plane -> plane) -> Prop :=
| db_matrix : forall pa pb pc pd pe pf a b c d e f,
    is_num pa a -> is_num pb b -> is_num pc c -> is_num pd d -> is_num pe e -> is_num pf f -> N e -> N f ->
    denotes_by D N "matrix" [pa; pb; pc; pd; pe; pf] (fun p => (a * fst p + c * snd p + e, b * fst p + d * snd p + f))
| db_translate1 : forall px tx, D px tx -> denotes_by D N "translate" [px] (sp_translate tx 0)
| db_translate : forall px py tx ty, D px tx -> D py ty -> denotes_by D N "translate" [px; py] (sp_translate tx ty)
| db_translatex : forall px tx, D px tx -> denotes_by D N "translatex" [px] (sp_translate tx 0)
| db_translatey : forall py ty, D py ty -> denotes_by D N "translatey" [py] (sp_translate 0 ty)
| db_rotate : forall pa px py a x y, is_angle pa a -> D px x -> D py y ->
    denotes_by D N "rotate" [pa; px; py] (sp_about x y (sp_rotate a))
| db_linear : forall nm ps f, denotes nm ps f -> In nm ["scale"; "scalex"; "scaley"; "skewx"; "skewy"; "skew"]%string ->
    denotes_by D N nm ps f
| db_rotate1 : forall pa a, is_angle pa a -> denotes_by D N "rotate" [pa] (sp_rotate a).
Inductive tlist_by (D : param -> R -> Prop) (N : R -> Prop) : text -> (plane -> plane) -> Prop :=
| tb_nil : forall w, Forall sepc w -> tlist_by D N w (fun p => p)
| tb_cons : forall w nm ps s f rest g, Forall sepc w -> func_text nm ps s -> denotes_by D N nm ps f -> tlist_by D N rest g ->
    tlist_by D N (w ++ s ++ rest) (fun p => f (g p)).
(** Units that can be added to each other: those of one metric family, or one unit. *)
Definition family (us : list string) : Prop :=
  us = ["cm"; "mm"; "in"]%string \/ us = ["em"]%string \/ us = ["vw"]%string \/ us = ["vh"]%string \/ us = ["%"]%string.
(** A distance of one of these units, or the number 0. *)
Definition of_family (k : known) (us : list string) (p : param) (d : R) : Prop :=
  resolved k p d /\ ((exists u, In u us /\ lower (p_unit p) = T u) \/ (p_unit p = [] /\ lit_val (p_lit p) == 0)%Q).
(** Axis-parallel functions, where x distances and y distances may be resolved differently. *)
Inductive axis_by (Dx Dy : param -> R -> Prop) : string -> list param -> (plane -> plane) -> Prop :=
| ab_translate1 : forall px tx, Dx px tx -> axis_by Dx Dy "translate" [px] (sp_translate tx 0)
| ab_translate : forall px py tx ty, Dx px tx -> Dy py ty -> axis_by Dx Dy "translate" [px; py] (sp_translate tx ty)
| ab_translatex : forall px tx, Dx px tx -> axis_by Dx Dy "translatex" [px] (sp_translate tx 0)
| ab_translatey : forall py ty, Dy py ty -> axis_by Dx Dy "translatey" [py] (sp_translate 0 ty)
| ab_scale1 : forall ps s, is_num ps s -> axis_by Dx Dy "scale" [ps] (sp_scale s s)
| ab_scale : forall px py sx sy, is_num px sx -> is_num py sy -> axis_by Dx Dy "scale" [px; py] (sp_scale sx sy)
| ab_scalex : forall px sx, is_num px sx -> axis_by Dx Dy "scalex" [px] (sp_scale sx 1)
| ab_scaley : forall py sy, is_num py sy -> axis_by Dx Dy "scaley" [py] (sp_scale 1 sy).
Inductive alist_by (Dx Dy : param -> R -> Prop) : text -> (plane -> plane) -> Prop :=
| al_nil : forall w, Forall sepc w -> alist_by Dx Dy w (fun p => p)
| al_cons : forall w nm ps s f rest g, Forall sepc w -> func_text nm ps s -> axis_by Dx Dy nm ps f -> alist_by Dx Dy rest g ->
    alist_by Dx Dy (w ++ s ++ rest) (fun p => f (g p)).
(** A distance in x refers to the width, one in y to the height. *)
Definition along (k : known) (rel : option R) : known := mkKnown (k_ppi k) (k_font k) (k_vb k) rel rel.
