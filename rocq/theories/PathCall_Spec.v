(** What the drawing methods should draw. *)
Require Import QArith Qcanon List Bool.
Require Import Verif.Text_Spec Verif.Path_Model Verif.PathText_Spec Verif.PathDraw_Spec Verif.PathCall_Model.
Import ListNotations.

(** The point an argument stands for: itself, or for "z" the start of the subpath. *)
Inductive aims (p : path) : parg -> pt -> Prop :=
| aim_pt : forall q, aims p (APt q) q
| aim_z : forall q, subpath_start p (Some q) -> aims p AZ q.
Definition aims2 p (x : parg * parg) (y : pt * pt) : Prop := aims p (fst x) (fst y) /\ aims p (snd x) (snd y).
Definition aims3 p (x : parg * parg * parg) (y : pt * pt * pt) : Prop := aims2 p (fst x) (fst y) /\ aims p (snd x) (snd y).
(** The point as far from [b] as [c] on the other side. *)
Definition beyond (c b : pt) : pt := (fst b + (fst b - fst c), snd b + (snd b - snd c))%Qc.
(** From [a] on: lines; lines along one axis, to a position or by a distance; curves; smooth curves whose first control point is [c]; arcs. *)
Fixpoint lines_to (a : pt) (l : list pt) : list drawn := match l with [] => [] | b :: r => SLine a b :: lines_to b r end.
Fixpoint up_to (rel : bool) (a : pt) (l : list Qc) : list drawn :=
  match l with [] => [] | y :: r => let b := (fst a, if rel then snd a + y else y)%Qc in SLine a b :: up_to rel b r end.
Fixpoint along_to (rel : bool) (a : pt) (l : list Qc) : list drawn :=
  match l with [] => [] | x :: r => let b := (if rel then fst a + x else x, snd a)%Qc in SLine a b :: along_to rel b r end.
Fixpoint quads_to (a : pt) (l : list (pt * pt)) : list drawn := match l with [] => [] | (c, b) :: r => SQuad a c b :: quads_to b r end.
Fixpoint cubics_to (a : pt) (l : list (pt * pt * pt)) : list drawn := match l with [] => [] | (c, d, b) :: r => SCubic a c d b :: cubics_to b r end.
Fixpoint smooth_quads_to (a c : pt) (l : list pt) : list drawn := match l with [] => [] | b :: r => SQuad a c b :: smooth_quads_to b (beyond c b) r end.
Fixpoint smooth_cubics_to (a c : pt) (l : list (pt * pt)) : list drawn := match l with [] => [] | (d, b) :: r => SCubic a c d b :: smooth_cubics_to b (beyond d b) r end.
Record arc_args := mkArgs { g_rx : Qc; g_ry : Qc; g_rot : Qc; g_large : bool; g_sweep : bool; g_end : pt }.
Fixpoint arcs_to (a : pt) (l : list arc_args) : list drawn :=
  match l with [] => [] | g :: r => SArc a (g_rx g) (g_ry g) (g_rot g) (g_large g) (g_sweep g) (g_end g) :: arcs_to (g_end g) r end.
(** The arguments of an arc. *)
Definition aims6 (p : path) (x : six) (g : arc_args) : Prop := x_rx x = g_rx g /\ x_ry x = g_ry g /\ x_rot x = g_rot g /\ x_large x = g_large g /\ x_sweep x = g_sweep g /\ aims p (x_end x) (g_end g).
(** The control point a smooth curve starts with: beyond the end of the last curve, or the current point if there is no curve before. *)
Inductive smooth_from : path -> pt -> Prop :=
| sf_quad : forall p s c b, s_kind s = KQuad (Some c) -> s_end s = Some b -> smooth_from (p ++ [s]) (beyond c b)
| sf_cubic : forall p s c d b, s_kind s = KCubic c (Some d) -> s_end s = Some b -> smooth_from (p ++ [s]) (beyond d b)
| sf_other : forall p s b, (forall c, s_kind s <> KQuad c) -> (forall c d, s_kind s <> KCubic c d) -> s_end s = Some b -> smooth_from (p ++ [s]) b.
(** What is drawn is added to the path. *)
Definition adds_drawing (p q : path) (ds : list drawn) : Prop := exists segs, q = p ++ segs /\ map view segs = map Some ds.
Definition added_flags (p q : path) (l : list (bool * bool)) : Prop := exists segs, q = p ++ segs /\ map (fun s => (s_rel s, s_smooth s)) segs = l.
