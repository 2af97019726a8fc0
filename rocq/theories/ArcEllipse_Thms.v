(** Property theorems about the ellipse of an arc (C125). *)
Require Import Reals Lra Psatz List Ascii String Bool.
Require Import Verif.Base Verif.Angle_Model Verif.Angle_Proofs Verif.Point_Model Verif.Arc_Model Verif.Arc_Spec Verif.Arc_Proofs Verif.Dom_Model Verif.ArcEllipse_Model.
Import ListNotations.
Open Scope R_scope.

Lemma frame_distance c r x y : distance c (frame c r x y) = sqrt (x * x + y * y).
Proof.
  unfold distance, frame. cbn [px py]. f_equal. pose proof (sin2_cos2 r) as H. unfold Rsqr in H.
  replace (x * x + y * y) with ((sin r * sin r + cos r * cos r) * (x * x + y * y)) by (rewrite H; ring). ring.
Qed.
Lemma radius_nonneg p q : 0 <= distance p q. Proof. apply sqrt_pos. Qed.
(** is_circular says whether all points of the ellipse of the arc are equally far from the centre, and then radius has that distance twice. *)
Theorem arc_circular : forall A, is_circular A = true <-> exists d, forall t, distance (a_center A) (ellipse_at (a_center A) (arx A) (ary A) (rotation A) t) = d.
Proof.
  intros A. unfold is_circular, ellipse_at. destruct (Req_EM_T (arx A) (ary A)) as [E|N]; split; intros H; try discriminate; try reflexivity.
  - exists (arx A). intros t. rewrite frame_distance, <- E. replace (arx A * cos t * (arx A * cos t) + arx A * sin t * (arx A * sin t)) with (arx A * arx A * (Rsqr (sin t) + Rsqr (cos t))) by (unfold Rsqr; ring).
    rewrite sin2_cos2, Rmult_1_r. apply sqrt_square. apply radius_nonneg.
  - destruct H as [d H]. exfalso. apply N. pose proof (H 0) as H0. pose proof (H (PI / 2)) as H1. rewrite frame_distance in H0, H1. rewrite cos_0, sin_0 in H0. rewrite cos_PI2, sin_PI2 in H1.
    replace (arx A * 1 * (arx A * 1) + ary A * 0 * (ary A * 0)) with (arx A * arx A) in H0 by ring. replace (arx A * 0 * (arx A * 0) + ary A * 1 * (ary A * 1)) with (ary A * ary A) in H1 by ring.
    rewrite sqrt_square in H0 by apply radius_nonneg. rewrite sqrt_square in H1 by apply radius_nonneg. congruence.
Qed.
Print Assumptions arc_circular.
Example arc_circular_case : is_circular (mkArc (P 1 0) (P 0 1) (P 0 0) (P 1 0) (P 0 1) (PI / 2)) = true /\ is_circular (mkArc (P 2 0) (P 0 1) (P 0 0) (P 2 0) (P 0 1) (PI / 2)) = false.
Proof.
  unfold is_circular, arx, ary, distance. cbn [a_center a_prx a_pry px py].
  replace ((0 - 1) * (0 - 1) + (0 - 0) * (0 - 0)) with (1 * 1) by ring. replace ((0 - 0) * (0 - 0) + (0 - 1) * (0 - 1)) with (1 * 1) by ring. replace ((0 - 2) * (0 - 2) + (0 - 0) * (0 - 0)) with (2 * 2) by ring.
  rewrite !sqrt_square by lra. destruct (Req_EM_T 1 1); [|lra]. destruct (Req_EM_T 2 1); [lra|]. auto.
Qed.
(** radius holds how far the two axis points are from the centre. *)
Theorem arc_radius_axes : forall A, distance (a_center A) (a_prx A) = px (arc_radius A) /\ distance (a_center A) (a_pry A) = py (arc_radius A) /\ 0 <= px (arc_radius A) /\ 0 <= py (arc_radius A).
Proof. intros A. unfold arc_radius, arx, ary. cbn [px py]. repeat split; apply radius_nonneg. Qed.
Print Assumptions arc_radius_axes.

(** Full statement: get_ellipse gives the ellipse of the arc. It raises NameError; and were the class known, the centre would be its cx,
    the first radius its cy, the second its rx and the angle its ry. *)
Theorem arc_get_ellipse_refuted : forall A, get_ellipse_repo A = Err NameError /\
  exists e, get_ellipse (Ok ellipse_init) A = Ok e /\ dget (T "cx"%string) e = Some (EPoint (a_center A)) /\ dget (T "cy"%string) e = Some (ENum (arx A)) /\
    dget (T "rx"%string) e = Some (ENum (ary A)) /\ dget (T "ry"%string) e = Some (ENum (rotation A)).
Proof. intros A. split; [reflexivity|]. eexists. split; [reflexivity|]. repeat split. Qed.
Print Assumptions arc_get_ellipse_refuted.
(** So the radii are right only where the arc is a circle turned by its radius. *)
Theorem arc_get_ellipse_radii_refuted : forall A e, get_ellipse (Ok ellipse_init) A = Ok e ->
  (dget (T "rx"%string) e = Some (ENum (arx A)) /\ dget (T "ry"%string) e = Some (ENum (ary A)) <-> is_circular A = true /\ rotation A = ary A).
Proof.
  intros A e H. injection H as <-. change (Some (ENum (ary A)) = Some (ENum (arx A)) /\ Some (ENum (rotation A)) = Some (ENum (ary A)) <-> is_circular A = true /\ rotation A = ary A).
  unfold is_circular. destruct (Req_EM_T (arx A) (ary A)) as [E|N]; split; intros [H K].
  - injection K as K. auto.
  - rewrite E, K. auto.
  - injection H as H. symmetry in H. contradiction.
  - discriminate.
Qed.
Print Assumptions arc_get_ellipse_radii_refuted.
