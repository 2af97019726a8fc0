(** What transform text should give in floating point: the map it denotes, but for a number of roundings. *)
Require Import ZArith QArith Qreals Reals String List.
From Flocq Require Import Core BinarySingleNaN.
Require Import Verif.Base Verif.Text_Spec Verif.Matrix_Spec Verif.Transform_Spec Verif.Float_Model Verif.Float_Spec Verif.FloatLength_Spec.
Import ListNotations.
Open Scope R_scope.

(** What is asked of cos, sin and tan: an error of at most four roundings, for the tangent where it is not beyond 2^1000, and that the
    tangent of zero is zero. *)
Definition good_trig (fcos fsin ftan : fl -> fl) : Prop := forall x, finite x ->
  about (fcos x) (cos (value x)) (4 * roundoff) /\ about (fsin x) (sin (value x)) (4 * roundoff) /\
  (cos (value x) <> 0 -> Rabs (tan (value x)) <= bpow radix2 1000 -> about (ftan x) (tan (value x)) (4 * roundoff * (1 + Rabs (tan (value x))))) /\ (value x = 0 -> value (ftan x) = 0).

(** One step of a transform: a bound on how far it moves a point whose coordinates are known in size, and a number of roundings. *)
Record step := mkStep { reach : plane -> plane; rounds : R }.
Definition entries (a b c d e f : R) : step :=
  mkStep (fun p => (Rabs a * fst p + Rabs c * snd p + Rabs e, Rabs b * fst p + Rabs d * snd p + Rabs f)) 1.
Definition turning (a : R) : step := mkStep (fun p => (fst p + snd p, fst p + snd p)) (1 + Rabs a).
(** Near a right angle a tangent is far off. *)
Definition steep (a : R) : R := 1 + Rabs (tan a).
Definition slanting (a b : R) (ra rb : R) : step := mkStep (fun p => (fst p + ra * snd p, rb * fst p + snd p)) (1 + ra * Rabs a + rb * Rabs b).
(** How far the steps lead together, the first one acting last; their roundings; and how large the numbers get on the way. *)
Definition together (l : list step) (p : plane) : plane := fold_right (fun s q => reach s q) p l.
Definition roundings (l : list step) : R := fold_right (fun s n => rounds s + n) 0 l.
Definition span_of (s : step) : R := 1 + fst (reach s (1, 1)) + snd (reach s (1, 1)).
Definition spans (l : list step) : R := fold_right (fun s n => span_of s * n) 1 l.

(** The steps of a transform function and the map it denotes. *)
Inductive weighs : string -> list param -> (plane -> plane) -> list step -> Prop :=
| w_matrix : forall pa pb pc pd pe pf a b c d e f,
    is_num pa a -> is_num pb b -> is_num pc c -> is_num pd d -> is_num pe e -> is_num pf f ->
    weighs "matrix" [pa; pb; pc; pd; pe; pf] (fun p => (a * fst p + c * snd p + e, b * fst p + d * snd p + f)) [entries a b c d e f]
| w_translate1 : forall px tx, is_dist px tx -> weighs "translate" [px] (sp_translate tx 0) [entries 1 0 0 1 tx 0]
| w_translate : forall px py tx ty, is_dist px tx -> is_dist py ty -> weighs "translate" [px; py] (sp_translate tx ty) [entries 1 0 0 1 tx ty]
| w_translatex : forall px tx, is_dist px tx -> weighs "translatex" [px] (sp_translate tx 0) [entries 1 0 0 1 tx 0]
| w_translatey : forall py ty, is_dist py ty -> weighs "translatey" [py] (sp_translate 0 ty) [entries 1 0 0 1 0 ty]
| w_scale1 : forall ps s, is_num ps s -> weighs "scale" [ps] (sp_scale s s) [entries s 0 0 s 0 0]
| w_scale : forall px py sx sy, is_num px sx -> is_num py sy -> weighs "scale" [px; py] (sp_scale sx sy) [entries sx 0 0 sy 0 0]
| w_scalex : forall px sx, is_num px sx -> weighs "scalex" [px] (sp_scale sx 1) [entries sx 0 0 1 0 0]
| w_scaley : forall py sy, is_num py sy -> weighs "scaley" [py] (sp_scale 1 sy) [entries 1 0 0 sy 0 0]
| w_rotate1 : forall pa a, is_angle pa a -> weighs "rotate" [pa] (sp_rotate a) [turning a]
| w_rotate : forall pa px py a x y, is_angle pa a -> is_dist px x -> is_dist py y ->
    weighs "rotate" [pa; px; py] (sp_about x y (sp_rotate a)) [entries 1 0 0 1 x y; turning a; entries 1 0 0 1 x y]
| w_skewx : forall pa a, is_angle pa a -> cos a <> 0 -> weighs "skewx" [pa] (sp_skew a 0) [slanting a 0 (steep a) 0]
| w_skewy : forall pa a, is_angle pa a -> cos a <> 0 -> weighs "skewy" [pa] (sp_skew 0 a) [slanting 0 a 0 (steep a)]
| w_skew : forall pa pb a b, is_angle pa a -> is_angle pb b -> cos a <> 0 -> cos b <> 0 ->
    weighs "skew" [pa; pb] (sp_skew a b) [slanting a b (steep a) (steep b)].
(** A transform list in text whose functions are all as asked, the map it denotes and its steps. *)
Inductive weighed (asked : string -> list param -> Prop) : text -> (plane -> plane) -> list step -> Prop :=
| ts_nil : forall w, Forall sepc w -> weighed asked w (fun p => p) []
| ts_cons : forall w nm ps s f l rest g l', Forall sepc w -> func_text nm ps s -> weighs nm ps f l -> asked nm ps -> weighed asked rest g l' ->
    weighed asked (w ++ s ++ rest) (fun p => f (g p)) (l ++ l').
(** The numbers are zero or neither very large nor very small. *)
Definition modest (nm : string) (ps : list param) : Prop := Forall (fun p => moderate_r (Q2R (lit_val (p_lit p)))) ps.
(** A matrix, a translation or a scale by whole numbers. *)
Definition by_whole (nm : string) (ps : list param) : Prop :=
  In nm ["matrix"; "translate"; "translatex"; "translatey"; "scale"; "scalex"; "scaley"]%string /\ Forall (fun p => exists z : Z, Q2R (lit_val (p_lit p)) = IZR z) ps.

(** The map of a matrix of floats. *)
Definition image_of (m : fmx) (p : plane) : plane :=
  (value (fma m) * fst p + value (fmc m) * snd p + value (fme m), value (fmb m) * fst p + value (fmd m) * snd p + value (fmf m)).
(** The exception raised, if any. *)
Definition failure {A} (r : Res A) : option exn := match r with Ok _ => None | Err e => Some e end.
