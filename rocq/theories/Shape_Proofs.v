(** Proofs about outlines. *)
Require Import Reals Lra List ZArith.
Require Import Verif.Base Verif.Angle_Model Verif.Point_Model Verif.Matrix_Model Verif.Arc_Model Verif.Arc_Spec Verif.Arc_Proofs Verif.Shape_Model Verif.Shape_Spec.
Import ListNotations.
Open Scope R_scope.

Lemma axes_frame : forall s e c rx ry sw, 0 < rx -> 0 < ry -> let A := mkArc s e c (P (px c + rx) (py c)) (P (px c) (py c + ry)) sw in
  arx A = rx /\ ary A = ry /\ cos (rotation A) = 1 /\ sin (rotation A) = 0.
Proof.
  intros s e c rx ry sw RX RY A. assert (E1 : a_prx A = polar c 0 rx) by (unfold polar; cbn; rewrite cos_0, sin_0; f_equal; ring).
  assert (E2 : a_pry A = polar c (PI / 2) ry) by (unfold polar; cbn; rewrite cos_PI2, sin_PI2; f_equal; ring).
  unfold arx, ary, rotation. rewrite E1, E2. change (a_center A) with c. rewrite !dist_polar by auto. destruct (angle_polar c 0 rx RX) as [-> ->]. rewrite cos_0, sin_0. auto.
Qed.
(** An arc with axes along x and y whose ends are at the right eccentric angles. *)
Lemma axes_on : forall s e c rx ry sw t0, 0 < rx -> 0 < ry -> s = P (px c + rx * cos t0) (py c + ry * sin t0) -> e = P (px c + rx * cos (t0 + sw)) (py c + ry * sin (t0 + sw)) ->
  arc_on (mkArc s e c (P (px c + rx) (py c)) (P (px c) (py c + ry)) sw) c rx ry t0 sw.
Proof.
  intros s e c rx ry sw t0 RX RY S E. set (A := mkArc s e c (P (px c + rx) (py c)) (P (px c) (py c + ry)) sw).
  assert (F : arx A = rx /\ ary A = ry /\ cos (rotation A) = 1 /\ sin (rotation A) = 0) by exact (axes_frame s e c rx ry sw RX RY). destruct F as (X & Y & C & SN).
  assert (PA : proper_at A t0).
  { unfold proper_at. rewrite X, Y. split; [auto|]. split; [auto|]. unfold ellipse_at, frame. rewrite C, SN. change (a_start A) with s. change (a_end A) with e. change (a_center A) with c. change (a_sweep A) with sw. rewrite S, E. split; f_equal; ring. }
  pose proof (arc_runs_own A t0 PA) as RU.
  assert (AT : forall t, arc_point A t = P (px c + rx * cos (t0 + t * sw)) (py c + ry * sin (t0 + t * sw))).
  { intros t. rewrite RU. unfold ellipse_at, frame. rewrite C, SN, X, Y. change (a_center A) with c. change (a_sweep A) with sw. f_equal; ring. }
  split; [|split; [|exact AT]].
  - rewrite AT. change (a_start A) with s. rewrite S. replace (t0 + 0 * sw) with t0 by ring. reflexivity.
  - rewrite AT. change (a_end A) with e. rewrite E. replace (t0 + 1 * sw) with (t0 + sw) by ring. reflexivity.
Qed.
Lemma tau4 : tau / 4 = PI / 2. Proof. unfold tau. field. Qed.
(** The four corners of a rounded rectangle. *)
Lemma axes_cw : forall s e rx ry, 0 < (py e - py s) * (px e - px s) -> arc_axes s e rx ry = mkArc s e (P (px s) (py e)) (P (px s + rx) (py e)) (P (px s) (py e + ry)) (tau / 4).
Proof.
  intros s e rx ry H. unfold arc_axes, orientation. cbn [px py]. replace ((py e - py s) * (px e - px s) - (px s - px s) * (py e - py e)) with ((py e - py s) * (px e - px s)) by ring.
  destruct (Req_EM_T _ 0); [lra|]. destruct (Rlt_dec 0 _); [reflexivity|contradiction].
Qed.
Lemma axes_ccw : forall s e rx ry, (py e - py s) * (px e - px s) < 0 -> arc_axes s e rx ry = mkArc s e (P (px e) (py s)) (P (px e + rx) (py s)) (P (px e) (py s + ry)) (tau / 4).
Proof.
  intros s e rx ry H. unfold arc_axes, orientation. cbn [px py]. replace ((py e - py s) * (px e - px s) - (px s - px s) * (py e - py e)) with ((py e - py s) * (px e - px s)) by ring.
  destruct (Req_EM_T _ 0); [lra|]. destruct (Rlt_dec 0 _); [lra|reflexivity].
Qed.
Lemma quarter_turns : cos (- (PI / 2)) = 0 /\ sin (- (PI / 2)) = -1 /\ cos (- (PI / 2) + PI / 2) = 1 /\ sin (- (PI / 2) + PI / 2) = 0 /\
  cos (0 + PI / 2) = 0 /\ sin (0 + PI / 2) = 1 /\ cos (PI / 2 + PI / 2) = -1 /\ sin (PI / 2 + PI / 2) = 0 /\ cos (PI + PI / 2) = 0 /\ sin (PI + PI / 2) = -1.
Proof.
  rewrite cos_neg, sin_neg, cos_PI2, sin_PI2. replace (- (PI / 2) + PI / 2) with 0 by ring. replace (0 + PI / 2) with (PI / 2) by ring. replace (PI / 2 + PI / 2) with PI by field.
  rewrite !cos_plus, !sin_plus, cos_0, sin_0, cos_PI2, sin_PI2, cos_PI, sin_PI. repeat split; ring.
Qed.
Lemma corner_ne : forall x y rx ry, 0 < rx -> 0 < ry -> arc_on (arc_axes (P (x - rx) y) (P x (y + ry)) rx ry) (P (x - rx) (y + ry)) rx ry (- (PI / 2)) (PI / 2).
Proof.
  intros x y rx ry RX RY. rewrite axes_cw by (cbn; replace ((y + ry - y) * (x - (x - rx))) with (ry * rx) by ring; apply Rmult_lt_0_compat; auto). rewrite tau4. cbn [px py].
  destruct quarter_turns as (C1 & S1 & C2 & S2 & _). apply (axes_on (P (x - rx) y) (P x (y + ry)) (P (x - rx) (y + ry))); auto; cbn [px py]; rewrite ?C1, ?S1, ?C2, ?S2; f_equal; ring.
Qed.
Lemma corner_se : forall x y rx ry, 0 < rx -> 0 < ry -> arc_on (arc_axes (P x (y - ry)) (P (x - rx) y) rx ry) (P (x - rx) (y - ry)) rx ry 0 (PI / 2).
Proof.
  intros x y rx ry RX RY. assert (H : 0 < ry * rx) by (apply Rmult_lt_0_compat; auto). rewrite axes_ccw by (cbn; replace ((y - (y - ry)) * (x - rx - x)) with (- (ry * rx)) by ring; lra). rewrite tau4. cbn [px py].
  destruct quarter_turns as (_ & _ & _ & _ & C1 & S1 & _). apply (axes_on (P x (y - ry)) (P (x - rx) y) (P (x - rx) (y - ry))); auto; cbn [px py]; rewrite ?cos_0, ?sin_0, ?C1, ?S1; f_equal; ring.
Qed.
Lemma corner_sw : forall x y rx ry, 0 < rx -> 0 < ry -> arc_on (arc_axes (P (x + rx) y) (P x (y - ry)) rx ry) (P (x + rx) (y - ry)) rx ry (PI / 2) (PI / 2).
Proof.
  intros x y rx ry RX RY. rewrite axes_cw by (cbn; replace ((y - ry - y) * (x - (x + rx))) with (ry * rx) by ring; apply Rmult_lt_0_compat; auto). rewrite tau4. cbn [px py].
  destruct quarter_turns as (_ & _ & _ & _ & _ & _ & C1 & S1 & _). apply (axes_on (P (x + rx) y) (P x (y - ry)) (P (x + rx) (y - ry))); auto; cbn [px py]; rewrite ?cos_PI2, ?sin_PI2, ?C1, ?S1; f_equal; ring.
Qed.
Lemma corner_nw : forall x y rx ry, 0 < rx -> 0 < ry -> arc_on (arc_axes (P x (y + ry)) (P (x + rx) y) rx ry) (P (x + rx) (y + ry)) rx ry PI (PI / 2).
Proof.
  intros x y rx ry RX RY. assert (H : 0 < ry * rx) by (apply Rmult_lt_0_compat; auto). rewrite axes_ccw by (cbn; replace ((y - (y + ry)) * (x + rx - x)) with (- (ry * rx)) by ring; lra). rewrite tau4. cbn [px py].
  destruct quarter_turns as (_ & _ & _ & _ & _ & _ & _ & _ & C1 & S1). apply (axes_on (P x (y + ry)) (P (x + rx) y) (P (x + rx) (y + ry))); auto; cbn [px py]; rewrite ?cos_PI, ?sin_PI, ?C1, ?S1; f_equal; ring.
Qed.
Lemma axes_ends : forall s e rx ry, a_start (arc_axes s e rx ry) = s /\ a_end (arc_axes s e rx ry) = e.
Proof. intros. unfold arc_axes. auto. Qed.
Lemma below_zero_pos : forall a w, 0 <= a -> below_zero (SNum a) w = Ok false.
Proof. intros a w H. unfold below_zero. destruct (Rlt_dec a 0); [lra|reflexivity]. Qed.
Lemma below_zero_num : forall a w, exists b, below_zero (SNum a) (SNum w) = Ok b.
Proof. intros a w. unfold below_zero. destruct (Rlt_dec a 0); eauto. Qed.
(** Ellipses. *)
Lemma about_on : forall c rx ry sw t, 0 < rx -> 0 < ry ->
  arc_on (arc_about (P (px c + rx * cos t) (py c + ry * sin t)) (P (px c + rx * cos (t + sw)) (py c + ry * sin (t + sw))) c rx ry sw) c rx ry t sw.
Proof.
  intros c rx ry sw t RX RY. unfold arc_about. replace (polar c 0 rx) with (P (px c + rx) (py c)) by (unfold polar; rewrite cos_0, sin_0; f_equal; ring).
  replace (polar c (0 + tau / 4) ry) with (P (px c) (py c + ry)) by (unfold polar; rewrite tau4, Rplus_0_l, cos_PI2, sin_PI2; f_equal; ring). apply axes_on; auto.
Qed.
Lemma round_point_0 : forall a b c t, round_point 0 a b c t = P (px c + a * cos t) (py c + b * sin t).
Proof. intros. unfold round_point. rewrite cos_0, sin_0. f_equal; ring. Qed.
