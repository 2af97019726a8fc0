(** Property theorems about printed path data (C40, C74). *)
Require Import ZArith QArith Qcanon Qabs Ascii String List Bool Lia.
Require Import Verif.Base Verif.Text_Spec Verif.FmtG_Model Verif.Path_Model Verif.PathText_Model Verif.PathText_Spec Verif.PathText_Proofs Verif.PathDraw_Spec Verif.PathDraw_Proofs
  Verif.PathD_Model Verif.PathD_Spec Verif.PathD_Proofs.
Import ListNotations.
Open Scope Z_scope.

Definition pz (x y : Z) : pt := (Q2Qc (inject_Z x), Q2Qc (inject_Z y)).
Lemma pz_grid : forall x y, Z.abs x <= 499999999999 -> Z.abs y <= 499999999999 -> pt_on_grid 0 (pz x y).
Proof.
  intros x y X Y. split; [exists x|exists y]; split; auto; cbn [pz fst snd]; change (p10 (- 0)) with 1%Q; rewrite Qmult_1_r; unfold Q2Qc; cbn [this]; apply Qred_correct.
Qed.
(** M0,0 Q1,1 2,0 T4,0 c... z with mixed flags *)
Definition ex_drawn : list drawn :=
  [SMove None (pz 0 0); SQuad (pz 0 0) (pz 1 1) (pz 2 0); SQuad (pz 2 0) (pz 3 (-1)) (pz 4 0); SLine (pz 4 0) (pz 4 9); SCubic (pz 4 9) (pz 4 9) (pz 7 7) (pz 8 8); SClose (pz 8 8) (pz 0 0); SMove (Some (pz 0 0)) (pz 5 5)].
Definition ex_path : path :=
  [mkSeg KMove None (Some (pz 0 0)) false true; mkSeg (KQuad (Some (pz 1 1))) (Some (pz 0 0)) (Some (pz 2 0)) true false; mkSeg (KQuad (Some (pz 3 (-1)))) (Some (pz 2 0)) (Some (pz 4 0)) false true;
   mkSeg KLine (Some (pz 4 0)) (Some (pz 4 9)) true true; mkSeg (KCubic (Some (pz 4 9)) (Some (pz 7 7))) (Some (pz 4 9)) (Some (pz 8 8)) false true;
   mkSeg KClose (Some (pz 8 8)) (Some (pz 0 0)) true true; mkSeg KMove (Some (pz 0 0)) (Some (pz 5 5)) true true].

(** * C40 *)
(** Full statement: printing any connected path of moves, lines, Beziers and closes and parsing the text
    draws the same segments. Proved where the coordinates have at most nine decimals and are short enough
    that their differences have 12 digits, and (if curves may be printed smooth) no curve that starts with
    its own start point as control follows a curve of the other sort. *)
Theorem path_text_roundtrip_partial : forall g relative smooth p ds, 0 <= g <= 9 -> map view p = map Some ds -> all_on_grid g ds -> chained None (0, 0)%Qc ds -> starts_drawing ds ->
  (smooth <> Some false -> unmixed ds) ->
  exists s q, svg_d p relative smooth = Ok s /\ parse s [] = (q, None) /\ map view q = map view p.
Proof. exact path_text_roundtrip. Qed.
Example path_text_roundtrip_ex : map view ex_path = map Some ex_drawn /\ all_on_grid 0 ex_drawn /\ chained None (0, 0)%Qc ex_drawn /\ starts_drawing ex_drawn /\ unmixed ex_drawn /\
  svg_d ex_path None None = Ok (T "M 0,0 q 1,1 2,0 T 4,0 l 0,9 S 7,7 8,8 z m 5,5").
Proof.
  split; [reflexivity|]. split; [|split; [|split; [|split]]].
  - repeat constructor; try (apply pz_grid; cbn; lia).
  - cbn. repeat split; auto.
  - exact I.
  - cbn. tauto.
  - vm_compute. reflexivity.
Qed.
Print Assumptions path_text_roundtrip_partial.
(** In terms of text alone: what is read from path data and printed reads back the same. *)
Theorem path_text_stable_partial : forall l s t g relative smooth p, spelled None l s t -> stop t -> begins_with_move l -> Forall no_arc l -> 0 <= g <= 9 ->
  all_on_grid g (svg false pen0 (values l)) -> (smooth <> Some false -> unmixed (svg false pen0 (values l))) -> parse s [] = (p, None) ->
  exists s' q, svg_d p relative smooth = Ok s' /\ parse s' [] = (q, None) /\ map view q = map view p.
Proof. exact path_text_stable_lemma. Qed.
Print Assumptions path_text_stable_partial.
(** M0,0 Q1,1 2,0 C2,0 3,3 4,0 prints S for the last curve, which is read as starting with control (3,-1). *)
Theorem path_text_mixed_refuted : exists p s q, connected p /\ svg_d p None None = Ok s /\ parse s [] = (q, None) /\ map view q <> map view p.
Proof.
  set (p := [mkSeg KMove None (Some (pz 0 0)) false true; mkSeg (KQuad (Some (pz 1 1))) (Some (pz 0 0)) (Some (pz 2 0)) false true;
             mkSeg (KCubic (Some (pz 2 0)) (Some (pz 3 3))) (Some (pz 2 0)) (Some (pz 4 0)) false true]).
  exists p. eexists. eexists. split; [|split; [vm_compute; reflexivity|split]].
  - apply (connected_snoc [_; _] _). apply (connected_snoc [_] _). apply (connected_snoc [] _ connected_nil). congruence.
    + intros _. split; [right; exists []; eexists; split; reflexivity|discriminate].
    + intros _. split; [right; eexists [_]; eexists; split; reflexivity|discriminate].
  - vm_compute. reflexivity.
  - intros K. apply (f_equal (fun x => match nth_error x 2 with Some (Some (SCubic _ c _ _)) => this (fst c) | _ => 0%Q end)) in K. vm_compute in K. discriminate K.
Qed.
Print Assumptions path_text_mixed_refuted.
(** L 1.5e-10,0 prints as 1.5E-1,0. *)
Theorem path_text_exponent_refuted : exists p s q, connected p /\ svg_d p None None = Ok s /\ parse s [] = (q, None) /\ map view q <> map view p.
Proof.
  set (e := (Q2Qc (15 # 100000000000), 0%Qc)).
  set (p := [mkSeg KMove None (Some (pz 0 0)) false true; mkSeg KLine (Some (pz 0 0)) (Some e) false true]).
  exists p. eexists. eexists. split; [|split; [vm_compute; reflexivity|split]].
  - apply (connected_snoc [_] _). apply (connected_snoc [] _ connected_nil). congruence.
    intros _. split; [right; exists []; eexists; split; reflexivity|discriminate].
  - vm_compute. reflexivity.
  - intros K. apply (f_equal (fun x => match nth_error x 1 with Some (Some (SLine _ c)) => this (fst c) | _ => 0%Q end)) in K. vm_compute in K. discriminate K.
Qed.
Print Assumptions path_text_exponent_refuted.
(** str(path) and d() never give any text: they take abs() of the path. *)
Theorem path_str_raises : forall p relative smooth, path_str p = Err TypeError /\ path_d p relative true smooth = Err TypeError.
Proof. intros. split; reflexivity. Qed.
Print Assumptions path_str_raises.

(** * C74 *)
(** Full statement: str of a segment with a start point reads back as a move to that point and the segment.
    Proved for moves, lines and curves not marked smooth. *)
Theorem segment_str_reads_partial : forall g s d b, 0 <= g <= 9 -> view s = Some d -> Forall (pt_on_grid g) (drawn_points d) -> s_start s = Some b -> stands_alone s ->
  exists t m s', seg_str s = Ok t /\ parse t [] = ([m; s'], None) /\ view m = Some (SMove None b) /\ view s' = view s.
Proof. exact seg_str_reads. Qed.
Example segment_str_ex : seg_str (mkSeg (KQuad (Some (pz 1 1))) (Some (pz 3 4)) (Some (pz 2 0)) true false) = Ok (T "m 3,4 Q 1,1 2,0").
Proof. vm_compute. reflexivity. Qed.
Print Assumptions segment_str_reads_partial.
(** A curve built by its constructor is marked smooth and loses its control: M 0,0 T 2,0. *)
Theorem segment_str_refuted : exists s t q, view s <> None /\ seg_str s = Ok t /\ parse t [] = (q, None) /\ map view q <> [Some (SMove None (pz 0 0)); view s].
Proof.
  exists (mkSeg (KQuad (Some (pz 1 1))) (Some (pz 0 0)) (Some (pz 2 0)) false true). eexists. eexists. split; [discriminate|]. split; [vm_compute; reflexivity|]. split.
  - vm_compute. reflexivity.
  - intros K. apply (f_equal (fun x => match nth_error x 1 with Some (Some (SQuad _ c _)) => this (fst c) | _ => 0%Q end)) in K. vm_compute in K. discriminate K.
Qed.
Print Assumptions segment_str_refuted.
