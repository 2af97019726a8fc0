(** Theorems about elliptical arcs: C56, C57, C58, C76, C77, and the arcs of C49, C51, C55. *)
Require Import Reals ZArith List Bool Lra Lia Psatz.
From Coquelicot Require Import Coquelicot.
Require Import Verif.Base Verif.Angle_Model Verif.Angle_Proofs Verif.Point_Model Verif.Point_Proofs Verif.Matrix_Model Verif.Curve_Model Verif.Curve_Spec.
Require Import Verif.Arc_Model Verif.Arc_Spec Verif.Arc_Proofs Verif.ArcCurves_Proofs Verif.ArcBox_Proofs Verif.ArcLen_Proofs Verif.ArcSolve_Proofs.
Import ListNotations.
Open Scope R_scope.

(** A quarter of the unit circle, used in the examples. *)
Definition quarter : arc := mkArc (P 1 0) (P 0 1) (P 0 0) (P (0 + 1) 0) (P 0 (0 + 1)) (PI / 2).
Lemma quarter_frame : arx quarter = 1 /\ ary quarter = 1 /\ cos (rotation quarter) = 1 /\ sin (rotation quarter) = 0.
Proof. apply (circle_frame (P 1 0) (P 0 1) (P 0 0) 1 (PI / 2)). lra. Qed.
Lemma quarter_proper : proper_at quarter 0.
Proof.
  destruct quarter_frame as (X & Y & C & S). unfold proper_at. rewrite X, Y. unfold ellipse_at, frame. rewrite C, S. cbn [a_start a_end a_center a_sweep quarter px py].
  replace (0 + PI / 2) with (PI / 2) by ring. rewrite cos_0, sin_0, cos_PI2, sin_PI2. repeat split; try lra; f_equal; ring.
Qed.
Lemma quarter_right : right_handed quarter.
Proof.
  destruct quarter_frame as (X & Y & C & S). unfold right_handed, polar. rewrite Y, cos_plus, sin_plus, C, S, cos_PI2, sin_PI2. cbn [a_pry a_center quarter px py]. f_equal; ring.
Qed.
Lemma not_p_eq : ~ p_eq (P 1 0) (P 0 1).
Proof. intros [H _]. cbn [px] in H. rewrite Rabs_right in H by lra. assert (/ 10 ^ 12 < 1) by (apply Rmult_lt_reg_l with (10 ^ 12); [lra|]; rewrite Rinv_r; lra). lra. Qed.

(** * C56: SVG parameters *)
(** For positive radii the arc runs along an ellipse with the given rotation, from the start to the end. The radii keep
    their ratio; they are enlarged only if no ellipse of the given radii reaches both points, and then as little as
    possible. The sweep has the sign of one flag and at least or at most half a turn by the other. *)
Theorem svg_arc_partial : forall s e rx ry rot large swp, 0 < rx -> 0 < ry -> ~ p_eq s e ->
  let A := svg_parameterize s rx ry rot large swp e in
  arc_point A 0 = s /\ arc_point A 1 = e /\
  (exists k t0, 1 <= k /\ (forall j, 1 <= j < k -> ~ fits s e (j * rx) (j * ry) (in_radians rot)) /\
     runs (arc_point A) (a_center A) (k * rx) (k * ry) (in_radians rot) t0 (a_sweep A)) /\
  (if swp then 0 < a_sweep A < 2 * PI else - (2 * PI) < a_sweep A < 0) /\
  (large = true -> PI <= Rabs (a_sweep A)) /\ (large = false -> Rabs (a_sweep A) <= PI).
Proof.
  intros s e rx ry rot large swp X Y NP A. destruct (svg_main s e rx ry rot large swp X Y NP) as (S & E & (k & K & KX & KY & KF) & RC & RS & _ & (t0 & PA) & SR & L1 & L2). fold A in S, E, KX, KY, RC, RS, PA, SR, L1, L2.
  pose proof (arc_runs_own A t0 PA) as RU. pose proof PA as (_ & _ & ST & EN).
  split; [rewrite <- S, ST, RU; f_equal; ring|]. split; [rewrite <- E, EN, RU; f_equal; ring|].
  split; [|auto]. exists k, t0. split; auto. split; auto. rewrite KX, KY in RU. eapply runs_turn; [| |exact RU]; auto.
Qed.
Example svg_arc_ex : 0 < 2 /\ 0 < 1 /\ ~ p_eq (P 1 0) (P 0 1).
Proof. split; [lra|]. split; [lra|]. exact not_p_eq. Qed.
Print Assumptions svg_arc_partial.

(** There is only one such arc: centre, sweep and every point follow from radii, rotation, ends and flags. *)
Theorem svg_arc_unique : forall s e a b r c c' t t' sw sw' f f', 0 < a -> 0 < b ->
  runs f c a b r t sw -> runs f' c' a b r t' sw' -> f 0 = s -> f' 0 = s -> f 1 = e -> f' 1 = e ->
  (0 < sw < 2 * PI /\ 0 < sw' < 2 * PI) \/ (- (2 * PI) < sw < 0 /\ - (2 * PI) < sw' < 0) ->
  (Rabs sw <= PI /\ Rabs sw' <= PI) \/ (PI <= Rabs sw /\ PI <= Rabs sw') ->
  c = c' /\ sw = sw' /\ forall x, f x = f' x.
Proof.
  intros s e a b r c c' t t' sw sw' f f' A B RU RU' F0 F0' F1 F1' SG LG.
  assert (E1 : s = ellipse_at c a b r t) by (rewrite <- F0, RU; f_equal; ring). assert (E2 : e = ellipse_at c a b r (t + sw)) by (rewrite <- F1, RU; f_equal; ring).
  assert (E3 : s = ellipse_at c' a b r t') by (rewrite <- F0', RU'; f_equal; ring). assert (E4 : e = ellipse_at c' a b r (t' + sw')) by (rewrite <- F1', RU'; f_equal; ring).
  destruct (arc_unique s e a b r c c' t t' sw sw' A B E1 E2 E3 E4 SG LG) as (C & W & U1 & U2). split; auto. split; auto. intros x. rewrite RU, RU', <- C, <- W. destruct (cs_add t t' (x * sw) U1 U2). now apply ellipse_at_cs.
Qed.
Example svg_arc_unique_ex : runs (arc_point quarter) (P 0 0) (arx quarter) (ary quarter) (rotation quarter) 0 (PI / 2) /\ 0 < PI / 2 < 2 * PI /\ Rabs (PI / 2) <= PI.
Proof. pose proof PI_RGT_0. split; [exact (arc_runs_own quarter 0 quarter_proper)|]. split; [lra|]. rewrite Rabs_right; lra. Qed.
Print Assumptions svg_arc_unique.

(** With one negative radius the arc runs away from its end. *)
Theorem svg_arc_negative_refuted : exists s e rx ry rot large swp, rx < 0 /\ 0 < ry /\ ~ p_eq s e /\
  let A := svg_parameterize s rx ry rot large swp e in
  px e = 0 /\ forall t, 0 < t < 1 -> 1 <= px (arc_point A t).
Proof.
  exists (P 1 0), (P 0 1), (-1), 1, 0, false, true. split; [lra|]. split; [lra|]. split; [exact not_p_eq|]. intros A. split; [reflexivity|]. intros t T.
  assert (PE : pt_eqb (P 1 0) (P 0 1) = false). { destruct (pt_eqb (P 1 0) (P 0 1)) eqn:Q; auto. apply pt_eqb_true in Q. destruct (not_p_eq Q). }
  assert (C0 : cos (math_radians 0) = 1) by (unfold math_radians; replace (0 * PI / 180) with 0 by field; apply cos_0).
  assert (S0 : sin (math_radians 0) = 0) by (unfold math_radians; replace (0 * PI / 180) with 0 by field; apply sin_0).
  assert (AE : exists prx pry, A = mkArc (P 1 0) (P 0 1) (P 1 1) prx pry (PI / 2) /\ prx = polar (P 1 1) PI 1 /\ distance (P 1 1) pry = 1).
  { unfold A, svg_parameterize. rewrite PE. destruct (Req_EM_T (-1) 0); [lra|]. destruct (Req_EM_T 1 0); [lra|]. cbv zeta. rewrite C0, S0.
    assert (X1 : x1prim (P 1 0) (P 0 1) 1 0 = / 2) by (unfold x1prim; cbn [px py]; field). assert (Y1 : y1prim (P 1 0) (P 0 1) 1 0 = - / 2) by (unfold y1prim; cbn [px py]; field).
    assert (CH : radius_check (P 1 0) (P 0 1) 1 0 (-1) 1 = / 2) by (unfold radius_check; rewrite X1, Y1; field). rewrite CH. destruct (Rlt_dec 1 (/ 2)); [lra|].
    assert (SC : svg_c (P 1 0) (P 0 1) 1 0 (-1 * 1) (1 * 1) false true = 1).
    { unfold svg_c. cbv zeta. rewrite X1, Y1. cbn [eqb]. match goal with |- sqrt (Rabs ?x) = 1 => replace x with 1 by field end. rewrite Rabs_R1. apply sqrt_1. }
    rewrite SC, X1, Y1. cbn [px py].
    replace (1 * (-1 * 1) * - / 2 / (1 * 1)) with (/ 2) by field. replace (- (1) * (1 * 1) * / 2 / (-1 * 1)) with (/ 2) by field.
    replace ((/ 2 - / 2) / (-1 * 1)) with 0 by field. replace ((- / 2 - / 2) / (1 * 1)) with (-1) by field. replace ((- / 2 - / 2) / (-1 * 1)) with 1 by field. replace ((- - / 2 - / 2) / (1 * 1)) with 0 by field.
    replace (0 * 0 + -1 * -1) with 1 by ring. replace (1 * 1 + 0 * 0) with 1 by ring. replace (sqrt (1 * 1)) with 1 by (rewrite Rmult_1_l, sqrt_1; auto).
    replace ((0 * 1 + -1 * 0) / 1) with 0 by field. destruct (Rlt_dec 1 0); [lra|]. destruct (Rlt_dec 0 (-1)); [lra|]. destruct (Rlt_dec (0 * 0 - -1 * 1) 0); [lra|].
    assert (DG : math_degrees (acos 0) = 90) by (rewrite acos_0; unfold math_degrees; field; apply PI_neq0). rewrite DG.
    assert (RM : rmod 90 360 = 90) by (apply rmod_unique with 0%Z; lra). rewrite RM.
    replace (1 * / 2 - 0 * / 2 + (1 + 0) / 2) with 1 by field. replace (0 * / 2 + 1 * / 2 + (0 + 1) / 2) with 1 by field.
    eexists. eexists. split; [f_equal; unfold as_radians, degrees, tau; field|].
    assert (RZ : as_radians (degrees 0) = 0) by (unfold as_radians, degrees; field). rewrite RZ. split.
    - pose proof (rotate_about (P 1 1) 0 (P (-1 * 1) 0)) as RA. cbn [px py] in RA. replace (1 + 0) with 1 in RA by ring. rewrite RA. unfold polar. rewrite cos_0, sin_0, cos_PI, sin_PI. cbn [px py]. f_equal; ring.
    - pose proof (rotate_about (P 1 1) 0 (P 0 (1 * 1))) as RA. cbn [px py] in RA. replace (1 + 0) with 1 in RA by ring. rewrite RA. unfold distance. rewrite cos_0, sin_0. cbn [px py].
      replace ((1 - (1 + 1 * 0 - 0 * (1 * 1))) * (1 - (1 + 1 * 0 - 0 * (1 * 1))) + (1 - (1 + 0 * 0 + 1 * (1 * 1))) * (1 - (1 + 0 * 0 + 1 * (1 * 1)))) with 1 by ring. apply sqrt_1. }
  destruct AE as (prx & pry & AE & PX & PY). clearbody A. subst A prx. set (A := mkArc _ _ _ _ _ _).
  assert (AX : arx A = 1) by (apply dist_polar; lra). assert (AY : ary A = 1) by exact PY. destruct (angle_polar (P 1 1) PI 1 Rlt_0_1) as [RC RS]. fold A in RC, RS. change (angle (P 1 1) (polar (P 1 1) PI 1)) with (rotation A) in RC, RS. rewrite cos_PI in RC. rewrite sin_PI in RS.
  assert (ST : a_start A = point_at_t A (PI / 2)). { unfold point_at_t. rewrite AX, AY, RC, RS, cos_PI2, sin_PI2. cbn [a_start a_center A px py]. f_equal; ring. }
  destruct (start_t_own A (PI / 2) ltac:(lra) ltac:(lra) ST) as [C S]. rewrite cos_PI2 in C. rewrite sin_PI2 in S.
  unfold arc_point. change (a_start A) with (P 1 0). change (a_end A) with (P 0 1). rewrite PE. destruct (Req_EM_T t 0); [lra|]. destruct (Req_EM_T t 1); [lra|].
  unfold point_at_t. cbn [px]. rewrite AX, AY, RC, RS, cos_plus, C, S. change (a_center A) with (P 1 1). change (a_sweep A) with (PI / 2). cbn [px]. pose proof PI_RGT_0.
  assert (0 <= sin (PI / 2 * t)) by (apply sin_ge_0; nra). lra.
Qed.
Print Assumptions svg_arc_negative_refuted.

(** With a zero radius SVG draws a straight line; here every point but the last is the start. *)
Theorem svg_arc_zero_refuted : exists s e rx ry rot large swp, rx = 0 /\ 0 < ry /\ ~ p_eq s e /\
  let A := svg_parameterize s rx ry rot large swp e in
  arc_point A 1 = e /\ (forall t, t < 1 -> arc_point A t = s) /\ as_cubic_curves A = [] /\ as_quad_curves A = [].
Proof.
  exists (P 1 0), (P 0 1), 0, 1, 0, false, true. split; auto. split; [lra|]. split; [exact not_p_eq|]. intros A.
  assert (PE : pt_eqb (P 1 0) (P 0 1) = false). { destruct (pt_eqb (P 1 0) (P 0 1)) eqn:Q; auto. apply pt_eqb_true in Q. destruct (not_p_eq Q). }
  assert (AE : A = mkArc (P 1 0) (P 0 1) (P 1 0) (P 1 0) (P 1 0) 0). { unfold A, svg_parameterize. rewrite PE. destruct (Req_EM_T 0 0); [auto|lra]. }
  clearbody A. subst A. set (A := mkArc _ _ _ _ _ _). assert (AR : arc_required A = 0%nat) by (apply required_spec; reflexivity). unfold as_cubic_curves, as_quad_curves. rewrite AR.
  assert (AX : arx A = 0) by (unfold arx, distance; cbn [a_center a_prx A px py]; replace ((1 - 1) * (1 - 1) + (0 - 0) * (0 - 0)) with 0 by ring; apply sqrt_0).
  assert (AY : ary A = 0) by (unfold ary, distance; cbn [a_center a_pry A px py]; replace ((1 - 1) * (1 - 1) + (0 - 0) * (0 - 0)) with 0 by ring; apply sqrt_0).
  unfold arc_point. change (a_start A) with (P 1 0). change (a_end A) with (P 0 1). rewrite PE. split; [destruct (Req_EM_T 1 0); [lra|]; destruct (Req_EM_T 1 1); [auto|lra]|].
  split; [|auto]. intros t T. destruct (Req_EM_T t 0); auto. destruct (Req_EM_T t 1); [lra|]. unfold point_at_t. rewrite AX, AY. cbn [a_center A px py]. f_equal; ring.
Qed.
Print Assumptions svg_arc_zero_refuted.

(** * C76: the printed numbers of an arc give the arc back *)
Theorem arc_d_roundtrip : forall A t0, proper_at A t0 -> ~ p_eq (a_start A) (a_end A) -> 0 < Rabs (a_sweep A) < 2 * PI ->
  let '(rx, ry, rot, large, swp) := arc_d A in
  let B := svg_parameterize (a_start A) rx ry rot large swp (a_end A) in
  a_center B = a_center A /\ a_prx B = a_prx A /\ a_sweep B = a_sweep A /\ forall t, arc_point B t = arc_point A t.
Proof.
  intros A t0 PA NP SW. pose proof (arc_d_again A t0 PA NP SW) as H. destruct (arc_d A) as [[[[rx ry] rot] large] swp]. cbv zeta in *. tauto.
Qed.
Example arc_d_roundtrip_ex : proper_at quarter 0 /\ ~ p_eq (a_start quarter) (a_end quarter) /\ 0 < Rabs (a_sweep quarter) < 2 * PI.
Proof. pose proof PI_RGT_0. split; [exact quarter_proper|]. split; [exact not_p_eq|]. cbn [a_sweep quarter]. rewrite Rabs_right; lra. Qed.
Print Assumptions arc_d_roundtrip.
(** An arc of more than one turn does not come back: the sweep read is less than a turn. *)
Theorem arc_d_turns_refuted : exists A t0, proper_at A t0 /\ ~ p_eq (a_start A) (a_end A) /\ 0 < Rabs (a_sweep A) /\
  let '(rx, ry, rot, large, swp) := arc_d A in
  a_sweep (svg_parameterize (a_start A) rx ry rot large swp (a_end A)) <> a_sweep A.
Proof.
  set (A := mkArc (P 1 0) (P 0 1) (P 0 0) (P (0 + 1) 0) (P 0 (0 + 1)) (PI / 2 + 2 * PI)). exists A, 0. pose proof PI_RGT_0.
  assert (F : arx A = 1 /\ ary A = 1 /\ cos (rotation A) = 1 /\ sin (rotation A) = 0) by exact (circle_frame (P 1 0) (P 0 1) (P 0 0) 1 (PI / 2 + 2 * PI) Rlt_0_1).
  destruct F as (X & Y & C & S).
  assert (PA : proper_at A 0).
  { unfold proper_at. rewrite X, Y. unfold ellipse_at, frame. rewrite C, S. cbn [a_start a_end a_center a_sweep A px py].
    replace (0 + (PI / 2 + 2 * PI)) with (PI / 2 + tau * IZR 1) by (unfold tau; ring). destruct (turn_period (PI / 2) 1) as [-> ->]. rewrite cos_0, sin_0, cos_PI2, sin_PI2. repeat split; try lra; f_equal; ring. }
  split; auto. split; [exact not_p_eq|]. split; [cbn [a_sweep A]; rewrite Rabs_right; lra|]. unfold arc_d.
  match goal with |- a_sweep (svg_parameterize _ _ _ ?r ?l ?w _) <> _ => pose proof (svg_main (a_start A) (a_end A) (arx A) (ary A) r l w ltac:(lra) ltac:(lra) not_p_eq) as M; cbv zeta in M; destruct M as (_ & _ & _ & _ & _ & _ & _ & SR & _) end.
  cbn [a_sweep A] in *. destruct (Rle_dec 0 (PI / 2 + 2 * PI)); lra.
Qed.
Print Assumptions arc_d_turns_refuted.

(** * C51 for arcs: ends and reversal *)
Theorem arc_ends : forall A t0, proper_at A t0 -> arc_point A 0 = a_start A /\ arc_point A 1 = a_end A /\
  (forall t, arc_point (arc_reverse A) t = arc_point A (1 - t)) /\ runs (arc_point A) (a_center A) (arx A) (ary A) (rotation A) t0 (a_sweep A).
Proof.
  intros A t0 PA. pose proof (arc_runs_own A t0 PA) as RU. split; [|split; [|split; [eapply arc_reverse_point; eauto|auto]]].
  - rewrite RU. destruct PA as (_ & _ & -> & _). f_equal; ring.
  - rewrite RU. destruct PA as (_ & _ & _ & ->). f_equal; ring.
Qed.
Example arc_ends_ex : proper_at quarter 0. Proof. exact quarter_proper. Qed.
Print Assumptions arc_ends.

(** * C49 for arcs: transformation *)
(** Right whenever the matrix keeps the axes of the ellipse perpendicular, is invertible, and reverses the
    orientation exactly where the code thinks so. *)
Theorem arc_transform_partial : forall A t0 m, proper_at A t0 -> right_handed A -> det m <> 0 ->
  dotp (affine m (a_center A)) (affine m (a_prx A)) (affine m (a_pry A)) = 0 ->
  (det m < 0 <-> (ma m < 0 /\ 0 <= md m) \/ (0 <= ma m /\ md m < 0)) ->
  forall t, arc_point (arc_mul A m) t = affine m (arc_point A t).
Proof.
  intros A t0 m PA RH DZ PE SG t. assert (AF : forall p, affine m p = apply_mx m p) by (intros p; unfold affine, apply_mx; f_equal; ring).
  rewrite !AF in *. now apply (arc_mul_point A t0 m).
Qed.
Example arc_transform_ex : let m := M 2 0 0 (-3) 5 7 in proper_at quarter 0 /\ right_handed quarter /\ det m <> 0 /\
  dotp (affine m (a_center quarter)) (affine m (a_prx quarter)) (affine m (a_pry quarter)) = 0 /\ (det m < 0 <-> (ma m < 0 /\ 0 <= md m) \/ (0 <= ma m /\ md m < 0)).
Proof.
  split; [exact quarter_proper|]. split; [exact quarter_right|]. unfold det, dotp, affine. cbn [ma mb mc md me mf px py a_center a_prx a_pry quarter]. split; [lra|]. split; [ring|]. split; intros; [right|]; lra.
Qed.
Print Assumptions arc_transform_partial.
(** Moving, turning and uniform scaling: every arc. *)
Theorem arc_transform_similar : forall A t0 p q x y, proper_at A t0 -> right_handed A -> p <> 0 \/ q <> 0 ->
  forall t, arc_point (arc_mul A (M p q (- q) p x y)) t = affine (M p q (- q) p x y) (arc_point A t).
Proof.
  intros A t0 p q x y PA RH NZ t. assert (D : 0 < p * p + q * q). { pose proof (sq_pos p). pose proof (sq_pos q). destruct (Req_dec (p * p + q * q) 0) as [Z|]; [|lra]. apply sum_sq_zero in Z. destruct Z; destruct NZ; contradiction. }
  apply (arc_transform_partial A t0); auto; unfold det, dotp, affine; cbn [ma mb mc md me mf px py].
  - lra.
  - destruct (prx_frame A) as [P1 P2]. rewrite P1, P2, RH. unfold polar. rewrite cos_plus, sin_plus, cos_PI2, sin_PI2. cbn [px py]. ring.
  - split; intros; [nra|lra].
Qed.
Example arc_transform_similar_ex : proper_at quarter 0 /\ right_handed quarter /\ (0 <> 0 \/ 2 <> 0).
Proof. split; [exact quarter_proper|]. split; [exact quarter_right|]. right. lra. Qed.
Print Assumptions arc_transform_similar.
(** Scaling along the axes of the ellipse. *)
Theorem arc_transform_scale : forall A t0 sx sy x y, proper_at A t0 -> right_handed A -> sin (rotation A) = 0 -> sx <> 0 -> sy <> 0 ->
  forall t, arc_point (arc_mul A (M sx 0 0 sy x y)) t = affine (M sx 0 0 sy x y) (arc_point A t).
Proof.
  intros A t0 sx sy x y PA RH R0 X Y t. apply (arc_transform_partial A t0); auto; unfold det, dotp, affine; cbn [ma mb mc md me mf px py].
  - assert (sx * sy <> 0) by (apply Rmult_integral_contrapositive_currified; auto). lra.
  - destruct (prx_frame A) as [P1 P2]. rewrite P1, P2, RH. unfold polar. rewrite cos_plus, sin_plus, cos_PI2, sin_PI2, R0. cbn [px py]. ring.
  - replace (sx * sy - 0 * 0) with (sx * sy) by ring. split; intros H.
    + destruct (Rtotal_order sx 0) as [L|[E|G]], (Rtotal_order sy 0) as [L'|[E'|G']]; try lra; try contradiction; nra.
    + destruct H as [[H1 H2]|[H1 H2]]; nra.
Qed.
Example arc_transform_scale_ex : proper_at quarter 0 /\ right_handed quarter /\ sin (rotation quarter) = 0.
Proof. split; [exact quarter_proper|]. split; [exact quarter_right|]. apply quarter_frame. Qed.
Print Assumptions arc_transform_scale.
(** Exchanging the axes reverses the orientation, but not the sweep: the arc bulges to the wrong side. *)
Theorem arc_transform_swap_refuted : exists A t0 m t, proper_at A t0 /\ right_handed A /\ det m = -1 /\
  dotp (affine m (a_center A)) (affine m (a_prx A)) (affine m (a_pry A)) = 0 /\
  px (arc_point (arc_mul A m) t) < 0 /\ 0 < px (affine m (arc_point A t)).
Proof.
  exists quarter, 0, (M 0 1 1 0 0 0), (/ 2). split; [exact quarter_proper|]. split; [exact quarter_right|]. split; [unfold det; cbn; ring|]. split; [unfold dotp, affine; cbn [ma mb mc md me mf px py a_center a_prx a_pry quarter]; ring|].
  pose proof PI_RGT_0. assert (S4 : 0 < sin (PI / 4)) by (apply sin_gt_0; lra). split.
  - set (B := arc_mul quarter (M 0 1 1 0 0 0)).
    assert (BE : B = mkArc (P 0 1) (P 1 0) (P 0 0) (polar (P 0 0) (PI / 2) 1) (P 1 0) (PI / 2)).
    { unfold B, arc_mul, apply_mx, polar. rewrite cos_PI2, sin_PI2. cbn [ma mb mc md me mf px py a_start a_end a_center a_prx a_pry a_sweep quarter]. destruct (Rlt_dec 0 0); [lra|]. f_equal; f_equal; ring. }
    clearbody B. subst B. set (B := mkArc _ _ _ _ _ _).
    assert (AX : arx B = 1) by (apply dist_polar; lra). assert (AY : ary B = 1) by (unfold ary, distance; cbn [a_center a_pry B px py]; replace ((0 - 1) * (0 - 1) + (0 - 0) * (0 - 0)) with 1 by ring; apply sqrt_1).
    destruct (angle_polar (P 0 0) (PI / 2) 1 Rlt_0_1) as [RC RS]. change (angle (P 0 0) (polar (P 0 0) (PI / 2) 1)) with (rotation B) in RC, RS. rewrite cos_PI2 in RC. rewrite sin_PI2 in RS.
    assert (ST : a_start B = point_at_t B 0). { unfold point_at_t. rewrite AX, AY, RC, RS, cos_0, sin_0. cbn [a_start a_center B px py]. f_equal; ring. }
    destruct (start_t_own B 0 ltac:(lra) ltac:(lra) ST) as [C S]. rewrite cos_0 in C. rewrite sin_0 in S.
    assert (PE : pt_eqb (P 0 1) (P 1 0) = false). { destruct (pt_eqb (P 0 1) (P 1 0)) eqn:Q; auto. apply pt_eqb_true in Q. exfalso. apply not_p_eq. destruct Q as [Q1 Q2]. cbn [px py] in *. split; cbn [px py]; rewrite Rabs_minus_sym; auto. }
    unfold arc_point. change (a_start B) with (P 0 1). change (a_end B) with (P 1 0). rewrite PE. destruct (Req_EM_T (/ 2) 0); [lra|]. destruct (Req_EM_T (/ 2) 1); [lra|].
    unfold point_at_t. cbn [px]. rewrite AX, AY, RC, RS, sin_plus, C, S. change (a_center B) with (P 0 0). change (a_sweep B) with (PI / 2). cbn [px]. replace (PI / 2 * / 2) with (PI / 4) by field. lra.
  - rewrite (arc_runs_own quarter 0 quarter_proper). destruct quarter_frame as (X & Y & C & S). unfold affine, ellipse_at, frame. cbn [ma mb mc md me mf px py]. rewrite X, Y, C, S. change (a_center quarter) with (P 0 0). change (a_sweep quarter) with (PI / 2). cbn [px py].
    replace (0 + / 2 * (PI / 2)) with (PI / 4) by field. lra.
Qed.
Print Assumptions arc_transform_swap_refuted.
(** A sheared circle is an ellipse with other axes; the arc keeps the images of the old ones. *)
Theorem arc_transform_shear_refuted : exists A t0 m t, proper_at A t0 /\ right_handed A /\ det m = 1 /\ 0 <= ma m /\ 0 <= md m /\
  px (arc_point (arc_mul A m) t) < px (affine m (arc_point A t)).
Proof.
  exists quarter, 0, (M 1 0 1 1 0 0), (/ 2). split; [exact quarter_proper|]. split; [exact quarter_right|]. split; [unfold det; cbn; ring|]. cbn [ma md]. split; [lra|]. split; [lra|].
  pose proof PI_RGT_0. assert (S4 : 0 < sin (PI / 4)) by (apply sin_gt_0; lra).
  set (B := arc_mul quarter (M 1 0 1 1 0 0)).
  assert (BE : B = mkArc (P 1 0) (P 1 1) (P 0 0) (polar (P 0 0) 0 1) (P 1 1) (PI / 2)).
  { unfold B, arc_mul, apply_mx, polar. rewrite cos_0, sin_0. cbn [ma mb mc md me mf px py a_start a_end a_center a_prx a_pry a_sweep quarter]. destruct (Rlt_dec 1 0); [lra|]. f_equal; f_equal; ring. }
  assert (RHS : px (affine (M 1 0 1 1 0 0) (arc_point quarter (/ 2))) = cos (PI / 4) + sin (PI / 4)).
  { rewrite (arc_runs_own quarter 0 quarter_proper). destruct quarter_frame as (X & Y & C & S). unfold affine, ellipse_at, frame. cbn [ma mb mc md me mf px py]. rewrite X, Y, C, S. change (a_center quarter) with (P 0 0). change (a_sweep quarter) with (PI / 2). cbn [px py].
    replace (0 + / 2 * (PI / 2)) with (PI / 4) by field. ring. }
  rewrite RHS. clear RHS. clearbody B. subst B. set (B := mkArc _ _ _ _ _ _).
  assert (AX : arx B = 1) by (apply dist_polar; lra). assert (AY : 0 < ary B) by (unfold ary, distance; cbn [a_center a_pry B px py]; replace ((0 - 1) * (0 - 1) + (0 - 1) * (0 - 1)) with 2 by ring; apply sqrt_lt_R0; lra).
  destruct (angle_polar (P 0 0) 0 1 Rlt_0_1) as [RC RS]. change (angle (P 0 0) (polar (P 0 0) 0 1)) with (rotation B) in RC, RS. rewrite cos_0 in RC. rewrite sin_0 in RS.
  assert (ST : a_start B = point_at_t B 0). { unfold point_at_t. rewrite AX, RC, RS, cos_0, sin_0. cbn [a_start a_center B px py]. f_equal; ring. }
  destruct (start_t_own B 0 ltac:(lra) ltac:(lra) ST) as [C S]. rewrite cos_0 in C. rewrite sin_0 in S.
  assert (PE : pt_eqb (P 1 0) (P 1 1) = false). { destruct (pt_eqb (P 1 0) (P 1 1)) eqn:Q; auto. apply pt_eqb_true in Q. exfalso. apply not_p_eq. destruct Q as [Q1 Q2]. cbn [px py] in *. split; cbn [px py]; [|auto]. replace (1 - 0) with (- (0 - 1)) by ring. rewrite Rabs_Ropp. auto. }
  unfold arc_point. change (a_start B) with (P 1 0). change (a_end B) with (P 1 1). rewrite PE. destruct (Req_EM_T (/ 2) 0); [lra|]. destruct (Req_EM_T (/ 2) 1); [lra|].
  unfold point_at_t. cbn [px]. rewrite AX, RC, RS, cos_plus, C, S. change (a_center B) with (P 0 0). change (a_sweep B) with (PI / 2). cbn [px]. replace (PI / 2 * / 2) with (PI / 4) by field. lra.
Qed.
Print Assumptions arc_transform_shear_refuted.

(** * C57: conversion to Bezier curves *)
(** Any number of pieces: a chain of that many curves from the start to the end. *)
Theorem arc_curves_chain : forall A n, (0 < n)%nat ->
  chain (a_start A) (as_cubic_curves_n A n) (a_end A) /\ length (as_cubic_curves_n A n) = n /\
  chain (a_start A) (as_quad_curves_n A n) (a_end A) /\ length (as_quad_curves_n A n) = n.
Proof.
  intros A n N. destruct n as [|n]; [lia|]. unfold as_cubic_curves_n, as_quad_curves_n.
  split; [apply cubic_slices_chain|]. split; [apply cubic_slices_length|]. split; [apply quad_slices_chain|apply quad_slices_length].
Qed.
Example arc_curves_chain_ex : (0 < 3)%nat. Proof. lia. Qed.
Print Assumptions arc_curves_chain.
(** By default as many pieces as 30 degrees fit, no more; none only for a sweep of zero. *)
Theorem arc_curves_default : forall A,
  (a_sweep A <> 0 -> chain (a_start A) (as_cubic_curves A) (a_end A) /\ chain (a_start A) (as_quad_curves A) (a_end A)) /\
  (a_sweep A = 0 -> as_cubic_curves A = [] /\ as_quad_curves A = []) /\
  length (as_cubic_curves A) = length (as_quad_curves A) /\
  Rabs (a_sweep A) <= INR (length (as_cubic_curves A)) * (PI / 6) < Rabs (a_sweep A) + PI / 6.
Proof.
  intros A. destruct (required_spec A) as (Z & L & U). unfold as_cubic_curves, as_quad_curves. split; [|split; [|split]].
  - intros S. assert (N : (0 < arc_required A)%nat). { destruct (arc_required A); [exfalso; apply S; now apply Z|lia]. } destruct (arc_curves_chain A _ N) as (H1 & _ & H2 & _). auto.
  - intros S. rewrite (proj2 Z S). auto.
  - unfold as_cubic_curves_n, as_quad_curves_n. now rewrite cubic_slices_length, quad_slices_length.
  - unfold as_cubic_curves_n. rewrite cubic_slices_length. auto.
Qed.
Example arc_curves_default_ex : a_sweep quarter <> 0. Proof. pose proof PI_RGT_0. cbn. lra. Qed.
Print Assumptions arc_curves_default.
(** The pieces of a proper arc meet on it, and the cubic ones touch it there: they leave along its velocity and
    arrive along it, all of them by the same factor, which has the sign of the sweep. *)
Theorem arc_cubics_touch : forall A t0 n i, proper_at A t0 -> (i < n)%nat ->
  let x j := INR j / INR n in
  let v j := ellipse_vel (arx A) (ary A) (rotation A) (t0 + x j * a_sweep A) in
  exists alpha, nth_error (as_cubic_curves_n A n) i =
    Some (GCubic (arc_point A (x i)) (along (arc_point A (x i)) (v i) alpha) (along (arc_point A (x (S i))) (v (S i)) (- alpha)) (arc_point A (x (S i)))) /\
    alpha = sin (a_sweep A / INR n) * (sqrt (4 + 3 * tan (a_sweep A / INR n / 2) ^ 2) - 1) / 3 /\
    (0 < a_sweep A / INR n < PI -> 0 < alpha) /\ (- PI < a_sweep A / INR n < 0 -> alpha < 0).
Proof.
  intros A t0 n i PA I x v. destruct (start_t_proper A t0 PA) as [C S]. pose proof (arc_runs_own A t0 PA) as RU. destruct PA as (_ & _ & ST & EN).
  assert (N0 : INR n <> 0) by (apply not_0_INR; lia). set (ts := a_sweep A / INR n).
  assert (TX : forall j, t0 + INR j * ts = t0 + x j * a_sweep A) by (intros j; unfold ts, x; field; auto).
  pose proof (cubic_slices_nth A t0 ts n 0 (a_start A) C S) as H. cbn [Nat.add] in H. change (INR 0) with 0 in H. specialize (H ltac:(rewrite EN; f_equal; unfold ts; field; auto) ltac:(rewrite ST; f_equal; ring) i I). cbv zeta in H.
  exists (sin ts * (sqrt (4 + 3 * tan (ts / 2) ^ 2) - 1) / 3). split; [|split; [reflexivity|split]].
  - unfold as_cubic_curves_n. fold ts. replace (start_t A) with (start_t A + 0 * ts) by ring. rewrite H, !TX. rewrite !RU. reflexivity.
  - apply alpha_sign.
  - intros T. replace ts with (- (- ts)) by ring. rewrite alpha_odd. pose proof (alpha_sign (- ts) ltac:(lra)). lra.
Qed.
Example arc_cubics_touch_ex : proper_at quarter 0 /\ (1 < 2)%nat /\ 0 < a_sweep quarter / INR 2 < PI.
Proof. pose proof PI_RGT_0. split; [exact quarter_proper|]. split; [lia|]. cbn [a_sweep quarter]. replace (INR 2) with 2 by (cbn; ring). lra. Qed.
Print Assumptions arc_cubics_touch.
(** The quadratic pieces meet on the arc too; each control point lies on the ray from the centre through the middle
    of its piece, outside the ellipse. *)
Theorem arc_quads_meet : forall A t0 n i, proper_at A t0 -> (i < n)%nat ->
  let x r := r / INR n in
  exists k, 1 <= k /\ k = (4 - cos (a_sweep A / INR n)) / 3 /\ nth_error (as_quad_curves_n A n) i =
    Some (GQuad (arc_point A (x (INR i))) (towards (a_center A) (arc_point A (x (INR i + / 2))) k) (arc_point A (x (INR i + 1)))).
Proof.
  intros A t0 n i PA I x. destruct (start_t_proper A t0 PA) as [C S]. pose proof (arc_runs_own A t0 PA) as RU. destruct PA as (_ & _ & ST & EN).
  assert (N0 : INR n <> 0) by (apply not_0_INR; lia). set (ts := a_sweep A / INR n).
  pose proof (quad_slices_nth A t0 ts n 0 (a_start A) C S) as H. cbn [Nat.add] in H. change (INR 0) with 0 in H. specialize (H ltac:(rewrite EN; f_equal; unfold ts; field; auto) ltac:(rewrite ST; f_equal; ring) i I). cbv zeta in H.
  exists ((4 - cos ts) / 3). pose proof (COS_bound ts). split; [lra|]. split; [reflexivity|]. unfold as_quad_curves_n. fold ts. replace (start_t A) with (start_t A + 0 * ts) by ring. rewrite H. rewrite !RU. rewrite S_INR. f_equal. f_equal.
  - f_equal. unfold ts, x. field. auto.
  - replace (t0 + x (INR i + / 2) * a_sweep A) with (t0 + (INR i + / 2) * ts) by (unfold ts, x; field; auto). unfold towards, ellipse_at, frame. apply pt_ext; cbn [px py]; ring.
  - f_equal. unfold ts, x. field. auto.
Qed.
Example arc_quads_meet_ex : proper_at quarter 0 /\ (1 < 2)%nat. Proof. split; [exact quarter_proper|lia]. Qed.
Print Assumptions arc_quads_meet.
(** The quadratic pieces do not touch the arc: one piece for a quarter of the unit circle leaves (1, 0) to the right. *)
Theorem arc_quads_touch_refuted : exists A t0 c, proper_at A t0 /\ as_quad_curves_n A 1 = [GQuad (P 1 0) c (P 0 1)] /\
  ellipse_vel (arx A) (ary A) (rotation A) t0 = P 0 1 /\ px c <> 1.
Proof.
  destruct (arc_quads_meet quarter 0 1 0 quarter_proper ltac:(lia)) as (k & K1 & KE & H). exists quarter, 0.
  destruct quarter_frame as (X & Y & C & S). pose proof (arc_runs_own quarter 0 quarter_proper) as RU. cbn [INR] in *.
  eexists. split; [exact quarter_proper|]. split; [|split].
  - assert (L : length (as_quad_curves_n quarter 1) = 1%nat) by (apply arc_curves_chain; lia). destruct (as_quad_curves_n quarter 1) as [|g [|]]; try discriminate. cbn [nth_error] in H. injection H as ->.
    destruct (arc_ends quarter 0 quarter_proper) as (E0 & E1 & _). replace (0 / 1) with 0 by field. replace ((0 + 1) / 1) with 1 by field. rewrite E0, E1. reflexivity.
  - unfold ellipse_vel, frame. rewrite X, Y, C, S, cos_0, sin_0. cbn [px py]. f_equal; ring.
  - replace ((0 + / 2) / 1) with (/ 2) by field. rewrite RU. unfold towards, ellipse_at, frame. rewrite X, Y, C, S. cbn [px py a_center quarter a_sweep]. change (a_sweep quarter) with (PI / 2) in KE. replace (PI / 2 / 1) with (PI / 2) in KE by field. rewrite cos_PI2 in KE.
    replace (0 + / 2 * (PI / 2)) with (PI / 4) by field. rewrite KE, cos_PI4. assert (S2 : sqrt 2 * sqrt 2 = 2) by (apply sqrt_sqrt; lra). intros Q.
    assert (1 / sqrt 2 * (4 / 3) = 1) by lra. assert (sqrt 2 <> 0) by (intros Z; rewrite Z in S2; lra). assert (4 / 3 = sqrt 2). { transitivity (sqrt 2 * (1 / sqrt 2 * (4 / 3))); [field; auto|rewrite H0; ring]. } rewrite <- H2 in S2. lra.
Qed.
Print Assumptions arc_quads_touch_refuted.

(** * C58: bounding box *)
Theorem arc_bbox_tight : forall A t0, proper_at A t0 -> a_sweep A <> 0 ->
  let '(x0, y0, x1, y1) := arc_bbox A in range (fun t => px (arc_point A t)) x0 x1 /\ range (fun t => py (arc_point A t)) y0 y1.
Proof.
  intros A t0 PA SW. pose proof (arc_bbox_spec A t0 PA SW) as H. destruct (arc_bbox A) as [[[x0 y0] x1] y1].
  destruct H as (B & (a & A1 & A2) & (b & B1 & B2) & (c & C1 & C2) & (d & D1 & D2)). unfold range.
  split; (split; [intros t T; apply B; auto|]); split; eauto.
Qed.
Example arc_bbox_ex : proper_at quarter 0 /\ a_sweep quarter <> 0.
Proof. pose proof PI_RGT_0. split; [exact quarter_proper|]. cbn. lra. Qed.
Print Assumptions arc_bbox_tight.
(** Without a sweep the box of an SVG arc with a zero radius has its corners in the order of start and end. *)
Theorem arc_bbox_zero_refuted : exists s e rx ry rot large swp,
  let '(x0, y0, x1, y1) := arc_bbox (svg_parameterize s rx ry rot large swp e) in x1 < x0.
Proof.
  exists (P 1 0), (P 0 1), 0, 1, 0, false, true. unfold svg_parameterize. destruct (pt_eqb (P 1 0) (P 0 1)); [|destruct (Req_EM_T 0 0); [|lra]]; unfold arc_bbox; cbn [a_sweep]; (destruct (Req_EM_T 0 0); [|lra]); cbn [a_start a_end px py]; lra.
Qed.
Print Assumptions arc_bbox_zero_refuted.

(** * C55 for arcs: length *)
(** Circles: exact; nearly circles: up to the difference of the radii. *)
Theorem arc_length_circle : forall E n A t0 err md, proper_at A t0 -> Rabs (arx A - ary A) < / 10 ^ 12 ->
  exists l L, arc_length_of E n A err md = Some l /\ arc_length (arc_point A) L /\ Rabs (l - L) <= Rabs (a_sweep A) * Rabs (arx A - ary A).
Proof.
  intros E n A t0 err md PA D. pose proof (arc_runs_own A t0 PA) as RU. destruct PA as (X & Y & _). destruct (runs_length _ _ _ _ _ _ _ RU) as (L & AL & B); try lra. pose proof (Rabs_pos (a_sweep A)).
  assert (MM : Rmin (arx A) (ary A) <= arx A <= Rmax (arx A) (ary A)) by (split; [apply Rmin_l|apply Rmax_l]).
  assert (MD : Rmax (arx A) (ary A) - Rmin (arx A) (ary A) = Rabs (arx A - ary A)). { unfold Rmax, Rmin. destruct (Rle_dec (arx A) (ary A)); [rewrite Rabs_left1|rewrite Rabs_right]; lra. }
  unfold arc_length_of. destruct (Req_EM_T (a_sweep A) 0) as [Z|Z].
  - exists 0, L. split; auto. split; auto. rewrite Z, Rabs_R0 in *. assert (L = 0) by lra. rewrite H0. replace (0 - 0) with 0 by ring. rewrite Rabs_R0. lra.
  - destruct (Rlt_dec _ _); [|contradiction]. exists (Rabs (arx A * a_sweep A)), L. split; auto. split; auto. rewrite Rabs_mult, (Rabs_right (arx A)) by lra. rewrite <- MD. apply Rabs_le. split; nra.
Qed.
Example arc_length_circle_ex : proper_at quarter 0 /\ Rabs (arx quarter - ary quarter) < / 10 ^ 12.
Proof. split; [exact quarter_proper|]. destruct quarter_frame as (-> & -> & _). rewrite Rminus_eq_0, Rabs_R0. apply Rinv_0_lt_compat. lra. Qed.
Print Assumptions arc_length_circle.
(** Ellipses with scipy: exact, if scipy's ellipeinc is the incomplete elliptic integral of the second kind. *)
Theorem arc_length_elliptic : forall (E : R -> R -> R) n A t0 err md, proper_at A t0 ->
  (forall x m, m < 1 -> is_RInt (fun t => sqrt (1 - m * sin t ^ 2)) 0 x (E x m)) -> / 10 ^ 12 <= Rabs (arx A - ary A) ->
  exists l, arc_length_of (Some E) n A err md = Some l /\ arc_length (arc_point A) l.
Proof.
  intros E n A t0 err md PA HE D. pose proof (arc_runs_own A t0 PA) as RU. destruct (start_t_proper A t0 PA) as [C S]. destruct PA as (X & Y & _). unfold arc_length_of. destruct (Req_EM_T (a_sweep A) 0) as [Z|Z].
  - exists 0. split; auto. destruct (runs_length _ _ _ _ _ _ _ RU) as (L & AL & B); try lra. rewrite Z, Rabs_R0 in B. replace 0 with L at 1 by lra. exact AL.
  - destruct (Rlt_dec _ _); [lra|]. exists (exact_length E A). split; auto. unfold exact_length. cbv zeta. eapply exact_runs; eauto.
Qed.
Example arc_length_elliptic_ex : exists E : R -> R -> R, forall x m, m < 1 -> is_RInt (fun t => sqrt (1 - m * sin t ^ 2)) 0 x (E x m).
Proof.
  exists (fun x m => RInt (fun t => sqrt (1 - m * sin t ^ 2)) 0 x). intros x m M. apply (RInt_correct (V := R_CompleteNormedModule)). apply (ex_RInt_continuous (V := R_CompleteNormedModule)). intros z _.
  apply continuous_comp with (f := fun t => 1 - m * sin t ^ 2) (g := sqrt).
  - apply (ex_derive_continuous (K := R_AbsRing) (V := R_NormedModule)). auto_derive. auto.
  - apply continuity_pt_filterlim, continuity_pt_sqrt. pose proof (SIN_bound z). assert (0 <= sin z ^ 2 <= 1) by nra. destruct (Rle_lt_dec 0 m); nra.
Qed.
Print Assumptions arc_length_elliptic.
(** Ellipses without scipy: the subdivision ends, between the chord and the true length, and close to it. *)
Theorem arc_length_subdivision : forall n A t0 err md k, proper_at A t0 -> a_sweep A <> 0 -> / 10 ^ 12 <= Rabs (arx A - ary A) ->
  0 < err -> Rabs (a_sweep A) * Rmax (arx A) (ary A) <= err * 2 ^ k -> (Nat.max md k < n)%nat ->
  exists l L, arc_length_of None n A err md = Some l /\ arc_length (arc_point A) L /\
    dist (a_start A) (a_end A) <= l <= L /\ L - l <= a_sweep A * a_sweep A * Rmax (arx A) (ary A) / 2 ^ S md.
Proof.
  intros n A t0 err md k PA SW D E K N. destruct (arc_ends A t0 PA) as (E0 & E1 & _ & RU). destruct PA as (X & Y & _). unfold arc_length_of. destruct (Req_EM_T (a_sweep A) 0); [contradiction|]. destruct (Rlt_dec _ _); [lra|].
  rewrite <- E0, <- E1. eapply runs_line_length; eauto; lra.
Qed.
(** An ellipse with radii 2 and 1. *)
Example arc_length_subdivision_ex : let A := mkArc (P 2 0) (P 0 1) (P 0 0) (polar (P 0 0) 0 2) (P 0 1) (PI / 2) in
  proper_at A 0 /\ a_sweep A <> 0 /\ / 10 ^ 12 <= Rabs (arx A - ary A) /\ exists k, Rabs (a_sweep A) * Rmax (arx A) (ary A) <= / 10 * 2 ^ k.
Proof.
  intros A. pose proof PI_RGT_0. assert (AX : arx A = 2) by (apply dist_polar; lra).
  assert (AY : ary A = 1) by (unfold ary, distance; cbn [a_center a_pry A px py]; replace ((0 - 0) * (0 - 0) + (0 - 1) * (0 - 1)) with 1 by ring; apply sqrt_1).
  destruct (angle_polar (P 0 0) 0 2 Rlt_0_2) as [RC RS]. change (angle (P 0 0) (polar (P 0 0) 0 2)) with (rotation A) in RC, RS. rewrite cos_0 in RC. rewrite sin_0 in RS.
  split; [|split; [cbn; lra|split]].
  - unfold proper_at. rewrite AX, AY. unfold ellipse_at, frame. rewrite RC, RS. cbn [a_start a_end a_center a_sweep A px py]. replace (0 + PI / 2) with (PI / 2) by ring. rewrite cos_0, sin_0, cos_PI2, sin_PI2. repeat split; try lra; f_equal; ring.
  - rewrite AX, AY, Rabs_right by lra. replace (2 - 1) with (/ 1) by field. apply Rinv_le_contravar; lra.
  - exists 6%nat. rewrite AX, AY. cbn [a_sweep A]. rewrite Rabs_right by lra. unfold Rmax. destruct (Rle_dec 2 1); [lra|]. pose proof PI_4. lra.
Qed.
Print Assumptions arc_length_subdivision.

(** * C77: arcs solved from points *)
(** Arc(start, end, control) for three points not on a line is an arc of a circle from start to end through control. *)
Theorem arc_control_passes : forall s k e, turn s k e <> 0 -> exists A, arc_control s k e None = Ok A /\
  arc_point A 0 = s /\ arc_point A 1 = e /\ (exists t, 0 < t < 1 /\ arc_point A t = k) /\
  (exists c r rot t0, 0 < r /\ runs (arc_point A) c r r rot t0 (a_sweep A)) /\ 0 < Rabs (a_sweep A) < 2 * PI /\ (0 < a_sweep A <-> 0 < turn s k e).
Proof.
  intros s k e TZ. destruct (arc_control_spec s k e TZ) as (A & t0 & AE & PA & S & E & RR & SW & SG & T). destruct (arc_ends A t0 PA) as (E0 & E1 & _ & RU). exists A.
  split; auto. split; [congruence|]. split; [congruence|]. split; auto. split; [|auto]. rewrite <- RR in RU. exists (a_center A), (arx A), (rotation A), t0. split; auto. apply PA.
Qed.
Example arc_control_ex : turn (P 1 0) (P 0 1) (P (-1) 0) <> 0. Proof. unfold turn. cbn [px py]. lra. Qed.
Print Assumptions arc_control_passes.
(** Three points on a line: either a division by zero or a half circle over start and control that misses the end. *)
Theorem arc_control_line_refuted : exists s k e A, arc_control s k e None = Ok A /\ s <> k /\ k <> e /\ s <> e /\ distance (a_center A) e <> distance (a_center A) s.
Proof.
  exists (P 0 0), (P 2 2), (P 3 3). assert (CC : control_center (P 0 0) (P 2 2) (P 3 3) = Ok (P 1 1)).
  { unfold control_center, towards. cbv zeta. cbn [px py]. destruct (Req_EM_T (2 - 0) 0); [lra|]. destruct (Req_EM_T (3 - 2) 0); [lra|]. destruct (Req_EM_T _ _) as [_|N]; [|exfalso; apply N; field]. do 2 f_equal; field. }
  unfold arc_control. rewrite CC. cbn [rbind]. eexists. split; [reflexivity|]. split; [intros Q; injection Q; lra|]. split; [intros Q; injection Q; lra|]. split; [intros Q; injection Q; lra|].
  unfold around_start, around. cbv zeta. cbn [a_center]. intros Q. pose proof (distance_sq (P 1 1) (P 3 3)) as D1. pose proof (distance_sq (P 1 1) (P 0 0)) as D2. rewrite Q in D1. cbn [px py] in D1, D2. lra.
Qed.
Print Assumptions arc_control_line_refuted.
(** Arc(start, end, sagitta): through the point over the middle of the chord at that height. *)
Theorem arc_sagitta_passes : forall s e g, s <> e -> g <> 0 -> exists A t, arc_sagitta s e g None = Ok A /\
  arc_point A 0 = s /\ arc_point A 1 = e /\ 0 < t < 1 /\
  arc_point A t = P ((px s + px e) / 2 + g * (py e - py s) / dist s e) ((py s + py e) / 2 - g * (px e - px s) / dist s e) /\ (0 < a_sweep A <-> 0 < g).
Proof.
  intros s e g NE G. destruct (sagitta_turn s e g NE) as (TU & KX & KY). destruct (angle_to_unit s e NE) as (Q & _). assert (DD : dist s e = distance s e) by (unfold dist, distance; f_equal; ring). rewrite DD.
  unfold arc_sagitta. set (k := polar _ _ _) in *. assert (TZ : turn s k e <> 0). { rewrite TU. apply Rmult_integral_contrapositive_currified; lra. }
  destruct (arc_control_passes s k e TZ) as (A & AE & P0 & P1 & (t & T & PT) & _ & _ & SG). exists A, t. split; auto. split; auto. split; auto. split; auto. split; [rewrite PT; apply pt_ext; auto|].
  rewrite SG, TU. split; intros; nra.
Qed.
Example arc_sagitta_ex : P 0 0 <> P 2 0 /\ 1 <> 0. Proof. split; [intros Q; injection Q; lra|lra]. Qed.
Print Assumptions arc_sagitta_passes.
(** A bulge is twice the sagitta per chord. *)
Theorem arc_bulge_sagitta : forall s e b ccw, arc_bulge s e b ccw = arc_sagitta s e (b * dist s e / 2) ccw.
Proof. intros s e b ccw. assert (D : distance_to s e = dist s e) by (unfold distance_to, p_abs, p_sub, coords, dist, hypot; cbn [px py]; f_equal; ring). unfold arc_bulge. now rewrite D. Qed.
Example arc_bulge_ex : arc_bulge (P 0 0) (P 2 0) 1 None = arc_sagitta (P 0 0) (P 2 0) (1 * dist (P 0 0) (P 2 0) / 2) None. Proof. apply arc_bulge_sagitta. Qed.
Print Assumptions arc_bulge_sagitta.
(** Arc(start, end, r): at most a half circle from start to end, of the radius or of half the distance if that is
    larger; ccw decides the direction. *)
Theorem arc_radius_solves : forall s e r ccw, s <> e -> exists A, arc_radius s e r ccw = Ok A /\ arc_point A 0 = s /\ arc_point A 1 = e /\
  (exists c rot t0, runs (arc_point A) c (Rmax r (dist s e / 2)) (Rmax r (dist s e / 2)) rot t0 (a_sweep A)) /\ 0 < Rabs (a_sweep A) <= PI /\
  (ccw = Some true -> a_sweep A < 0) /\ (ccw = Some false -> 0 < a_sweep A) /\ (ccw = None -> dist s e / 2 < r -> 0 < a_sweep A).
Proof.
  intros s e r ccw NE. assert (DD : dist s e = distance s e) by (unfold dist, distance; f_equal; ring). rewrite DD.
  destruct (arc_radius_spec s e r ccw NE) as (A & t0 & AE & PA & S & E & RX & RY & SW & SG). destruct (arc_ends A t0 PA) as (E0 & E1 & _ & RU). exists A. split; auto. split; [congruence|]. split; [congruence|]. split.
  { rewrite RY, RX in RU. eauto. }
  split; auto. split; [|split].
  - intros ->. assert (~ 0 < a_sweep A) by (rewrite SG; discriminate). destruct (Req_dec (a_sweep A) 0) as [Z|]; [|lra]. rewrite Z, Rabs_R0 in SW. lra.
  - intros ->. apply SG. auto.
  - intros -> L. apply SG. auto.
Qed.
Example arc_radius_ex : P 0 0 <> P 2 0. Proof. intros Q. injection Q. lra. Qed.
Print Assumptions arc_radius_solves.
(** Without ccw the direction depends on the radius: a radius of half the distance or less turns the other way. *)
Theorem arc_radius_default_refuted : exists s e r r' A B, s <> e /\ arc_radius s e r None = Ok A /\ arc_radius s e r' None = Ok B /\ 0 < a_sweep A /\ a_sweep B < 0.
Proof.
  assert (NE : P 0 0 <> P 2 0) by (intros Q; injection Q; lra). assert (D : distance (P 0 0) (P 2 0) = 2). { unfold distance. cbn [px py]. replace ((0 - 2) * (0 - 2) + (0 - 0) * (0 - 0)) with (2 * 2) by ring. apply sqrt_square. lra. }
  destruct (arc_radius_spec (P 0 0) (P 2 0) 5 None NE) as (A & t0 & AE & _ & _ & _ & _ & _ & _ & SA). destruct (arc_radius_spec (P 0 0) (P 2 0) 1 None NE) as (B & t1 & BE & _ & _ & _ & _ & _ & WB & SB). rewrite D in *.
  exists (P 0 0), (P 2 0), 5, 1, A, B. split; auto. split; auto. split; auto. split; [apply SA; lra|]. assert (N : ~ 0 < a_sweep B) by (rewrite SB; lra). destruct (Req_dec (a_sweep B) 0) as [Z|]; [|lra]. rewrite Z, Rabs_R0 in WB. lra.
Qed.
Print Assumptions arc_radius_default_refuted.
