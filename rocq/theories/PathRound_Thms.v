(** Property theorems about printed path data with more digits than are printed (C40, C74). *)
Require Import ZArith QArith Qcanon Qabs Ascii String List Bool Lia.
Require Import Verif.Base Verif.Text_Spec Verif.PointText_Spec Verif.FmtG_Model Verif.Path_Model Verif.PathText_Model Verif.PathText_Spec Verif.PathDraw_Spec
  Verif.PathD_Model Verif.PathD_Spec Verif.PathD_Proofs Verif.PathRound_Spec Verif.PathRound_Proofs.
Import ListNotations.
Open Scope Z_scope.

Definition third (x y : Z) : pt := (Q2Qc (x # 3), Q2Qc (y # 3)).
Lemma third_legible : forall x, 1 <= Z.abs x <= 1000000 -> legible (Q2Qc (x # 3)).
Proof.
  intros x H. left. right. unfold Q2Qc; cbn [this]. rewrite Qred_correct. unfold Qabs. change (p10 12 - 1)%Q with (999999999999 # 1)%Q. change (p10 (-4)) with (1 # 10000)%Q.
  unfold Qle; cbn [Qnum Qden]. lia.
Qed.
Definition round_drawn : list drawn := [SMove None (third 1 2); SCubic (third 1 2) (third 4 5) (third 7 8) (third 10 14); SClose (third 10 14) (third 1 2)].
Definition round_path : path :=
  [mkSeg KMove None (Some (third 1 2)) false true; mkSeg (KCubic (Some (third 4 5)) (Some (third 7 8))) (Some (third 1 2)) (Some (third 10 14)) false false;
   mkSeg KClose (Some (third 10 14)) (Some (third 1 2)) false true].

(** * C40 *)
(** A path of moves, lines, Beziers and closes printed absolute, its curves in full, reads back as the same
    path with every coordinate right to 12 significant digits. The coordinates are any rational numbers that
    are 0, from 1e-4 to 1e12, or of a size printed with an exponent that does not end in 0. *)
Theorem path_text_digits_partial : forall relative smooth p ds, map view p = map Some ds -> chained None (0, 0)%Qc ds -> starts_drawing ds ->
  Forall (fun s => rel_of relative s = false) p -> Forall (fun d => Forall legible (numbers false d)) ds ->
  (forall s, In s p -> curved s -> wants smooth s = false) ->
  exists s q ds', svg_d p relative smooth = Ok s /\ parse s [] = (q, None) /\ map view q = map Some ds' /\ Forall2 (drawn_by digits12) ds' ds.
Proof. exact text_digits12. Qed.
Example path_text_digits_ex : map view round_path = map Some round_drawn /\ chained None (0, 0)%Qc round_drawn /\ starts_drawing round_drawn /\
  Forall (fun d => Forall legible (numbers false d)) round_drawn /\ Forall (fun s => rel_of None s = false) round_path /\ (forall s, In s round_path -> curved s -> wants None s = false) /\
  svg_d round_path None None = Ok (T "M 0.333333333333,0.666666666667 C 1.33333333333,1.66666666667 2.33333333333,2.66666666667 3.33333333333,4.66666666667 Z").
Proof.
  split; [reflexivity|]. split; [cbn; auto|]. split; [exact I|]. split; [repeat first [apply Forall_nil|apply Forall_cons]; apply third_legible; lia|]. split; [repeat constructor|]. split.
  - intros s [<-|[<-|[<-|[]]]] C; try reflexivity; destruct C.
  - vm_compute. reflexivity.
Qed.
Print Assumptions path_text_digits_partial.
(** Printed relative, or partly so, the roundings add up: every point of the segment at position i is off by at
    most i + 1 times half a unit of the twelfth digit of the largest number printed. *)
Theorem path_text_drift_partial : forall B relative smooth p ds, (0 <= B)%Q -> map view p = map Some ds -> chained None (0, 0)%Qc ds -> starts_drawing ds ->
  Forall2 (fun s d => Forall (size_at_most B) (numbers (rel_of relative s) d)) p ds ->
  (forall s, In s p -> curved s -> wants smooth s = false) ->
  exists s q ds', svg_d p relative smooth = Ok s /\ parse s [] = (q, None) /\ map view q = map Some ds' /\ List.length ds' = List.length ds /\
    forall i d, nth_error ds i = Some d -> exists d', nth_error ds' i = Some d' /\ drawn_by (off (drift B (S i))) d' d.
Proof. exact text_drifts. Qed.
Example path_text_drift_ex : Forall2 (fun s d => Forall (size_at_most 10) (numbers (rel_of (Some true) s) d)) round_path round_drawn /\
  svg_d round_path (Some true) (Some false) = Ok (T "m 0.333333333333,0.666666666667 c 1,1 2,2 3,4 z") /\ (drift 10 3 == 15 # 100000000000)%Q.
Proof.
  split; [|split; [vm_compute; reflexivity|reflexivity]].
  assert (Z : forall x, 1 <= Z.abs x <= 20 -> forall y, y = Q2Qc (x # 3) -> size_at_most 10 y).
  { intros x H y ->. split; [apply third_legible; lia|]. unfold Q2Qc; cbn [this]. rewrite Qred_correct. unfold Qabs, Qle; cbn [Qnum Qden]. lia. }
  repeat first [apply Forall2_nil|apply Forall2_cons|apply Forall_nil|apply Forall_cons];
    [apply (Z 1)|apply (Z 2)|apply (Z 3)|apply (Z 3)|apply (Z 6)|apply (Z 6)|apply (Z 9)|apply (Z 12)]; try lia; apply Qc_is_canon; reflexivity.
Qed.
Print Assumptions path_text_drift_partial.

(** * C74 *)
(** str of a move, a line or a curve not marked smooth reads back right to 12 significant digits. *)
Theorem segment_str_digits_partial : forall s d b, view s = Some d -> Forall legible (numbers false d) -> s_start s = Some b -> legible (fst b) -> legible (snd b) -> stands_alone s ->
  exists t m s' b' d', seg_str s = Ok t /\ parse t [] = ([m; s'], None) /\ view m = Some (SMove None b') /\ digits12 b' b /\ view s' = Some d' /\ drawn_by digits12 d' d.
Proof. exact seg_str_rounds. Qed.
Example segment_str_digits_ex : stands_alone (mkSeg KLine (Some (third 1 2)) (Some (third 4 5)) false true) /\
  seg_str (mkSeg KLine (Some (third 1 2)) (Some (third 4 5)) false true) = Ok (T "M 0.333333333333,0.666666666667 L 1.33333333333,1.66666666667").
Proof. split; [exact I|vm_compute; reflexivity]. Qed.
Print Assumptions segment_str_digits_partial.
