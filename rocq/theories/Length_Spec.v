(** Independent specification for lengths: the CSS Values absolute and relative unit table. *)
Require Import ZArith QArith Qabs Ascii String List.
Import ListNotations.
Open Scope Q_scope.

(** What a resolution context provides, all in px (ppi in px per inch). *)
Record env := mkEnv {
  e_ppi : option Q; e_rel : option Q; e_font : option Q; e_xheight : option Q; e_box : option (Q * Q) }.

(** CSS: number of px in one unit [u] ([None]: not determined by the context). *)
Inductive css_unit (e : env) : string -> Q -> Prop :=
| css_user : css_unit e "" 1
| css_px : css_unit e "px" 1
| css_pt : css_unit e "pt" (4 # 3)
| css_pc : css_unit e "pc" 16
| css_in : forall p, e_ppi e = Some p -> css_unit e "in" p
| css_cm : forall p, e_ppi e = Some p -> css_unit e "cm" (p / (254 # 100))
| css_mm : forall p, e_ppi e = Some p -> css_unit e "mm" (p / (254 # 10))
| css_pct : forall r, e_rel e = Some r -> css_unit e "%" (r / 100)
| css_em : forall f, e_font e = Some f -> css_unit e "em" f
| css_ex : forall f, e_xheight e = Some f -> css_unit e "ex" f
| css_vw : forall w h, e_box e = Some (w, h) -> css_unit e "vw" (w / 100)
| css_vh : forall w h, e_box e = Some (w, h) -> css_unit e "vh" (h / 100)
| css_vmin_w : forall w h, e_box e = Some (w, h) -> w <= h -> css_unit e "vmin" (w / 100)
| css_vmin_h : forall w h, e_box e = Some (w, h) -> h <= w -> css_unit e "vmin" (h / 100)
| css_vmax_w : forall w h, e_box e = Some (w, h) -> h <= w -> css_unit e "vmax" (w / 100)
| css_vmax_h : forall w h, e_box e = Some (w, h) -> w <= h -> css_unit e "vmax" (h / 100).

(** Units whose px size depends on something the context does not have. *)
Definition undetermined (e : env) (u : string) : Prop :=
  match u with
  | "in" | "cm" | "mm" => e_ppi e = None
  | "%" => e_rel e = None
  | "em" => e_font e = None
  | "ex" => e_xheight e = None
  | "vw" | "vh" | "vmin" | "vmax" => e_box e = None
  | _ => False
  end%string.

Definition within (r : Q) (x y : Q) : Prop := Qabs (x - y) <= r * Qabs y.

(** Units convertible into each other without any context. *)
Definition metric (u : string) : Prop := u = "mm"%string \/ u = "cm"%string \/ u = "in"%string.
Definition pxlike (u : string) : Prop := u = ""%string \/ u = "px"%string \/ u = "pt"%string \/ u = "pc"%string.
Definition pt_pc_mix (u v : string) : Prop := (u = "pt" /\ v = "pc")%string \/ (u = "pc" /\ v = "pt")%string.
Definition convertible (u v : string) : Prop := u = v \/ (metric u /\ metric v) \/ (pxlike u /\ pxlike v).
