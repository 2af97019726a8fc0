(** Round shapes. *)
Require Import Reals Lra List Psatz.
Require Import Verif.Base Verif.Angle_Model Verif.Angle_Proofs Verif.Point_Model Verif.Point_Proofs Verif.Matrix_Model Verif.Arc_Model Verif.Arc_Spec Verif.Arc_Proofs Verif.ArcBox_Proofs Verif.ArcAngle_Thms Verif.Shape_Model Verif.Round_Model.
Open Scope R_scope.

Lemma round_point_at : forall r a b c t, round_point r a b c t = ellipse_at c a b r t.
Proof. intros. unfold round_point, ellipse_at, frame. f_equal; ring. Qed.
Lemma ellipse_at_on : forall c a b r t, 0 < a -> 0 < b -> on_ellipse c a b r (ellipse_at c a b r t).
Proof.
  intros c a b r t A B. exists (a * cos t), (b * sin t). split; [reflexivity|]. replace (a * cos t / a) with (cos t) by (field; lra). replace (b * sin t / b) with (sin t) by (field; lra). pose proof (sin2_cos2 t). unfold Rsqr in *. lra.
Qed.
(** The arc object of a shape. *)
Definition arc_of (s e c : pt) (a b r sweep : R) : arc := mkArc s e c (polar c r a) (polar c (r + tau / 4) b) sweep.
Section Of.
  Variables (s e c : pt) (a b r sweep : R).
  Hypothesis A0 : 0 < a.
  Hypothesis B0 : 0 < b.
  Let A := arc_of s e c a b r sweep.
  Lemma of_rx : arx A = a. Proof. apply dist_polar; auto. Qed.
  Lemma of_ry : ary A = b. Proof. apply dist_polar; auto. Qed.
  Lemma of_rot : cos (rotation A) = cos r /\ sin (rotation A) = sin r. Proof. apply angle_polar; auto. Qed.
  Lemma of_at : forall t, ellipse_at (a_center A) (arx A) (ary A) (rotation A) t = ellipse_at c a b r t.
  Proof. intros t. rewrite of_rx, of_ry. destruct of_rot as [C S]. unfold ellipse_at, frame. rewrite C, S. reflexivity. Qed.
  Lemma of_on : forall p, on_ellipse c a b r p <-> on_ellipse (a_center A) (arx A) (ary A) (rotation A) p.
  Proof. intros p. rewrite of_rx, of_ry. destruct of_rot as [C S]. unfold on_ellipse, frame. rewrite C, S. reflexivity. Qed.
  Lemma of_point : forall t, point_at_t A t = ellipse_at c a b r t.
  Proof. intros t. rewrite <- of_at. unfold point_at_t, ellipse_at, frame. f_equal; ring. Qed.
End Of.
Lemma arc_of_runs : forall p q c a b r t0 sw, 0 < a -> 0 < b -> p = ellipse_at c a b r t0 -> q = ellipse_at c a b r (t0 + sw) ->
  let A := arc_of p q c a b r sw in arc_point A 0 = p /\ arc_point A 1 = q /\ runs (arc_point A) c a b r t0 sw.
Proof.
  intros p q c a b r t0 sw A0 B0 P Q A. assert (PA : proper_at A t0).
  { unfold proper_at. unfold A at 1 2. rewrite of_rx, of_ry by auto. split; [auto|]. split; [auto|]. unfold A. rewrite !of_at by auto. split; auto. }
  pose proof (arc_runs_own A t0 PA) as RU. assert (R2 : runs (arc_point A) c a b r t0 sw) by (intros t; rewrite RU; unfold A; rewrite of_at by auto; reflexivity).
  split; [rewrite R2, P; f_equal; ring|]. split; [rewrite R2, Q; f_equal; ring|exact R2].
Qed.
Lemma dir_at : forall c a b r t x k, a * cos t = k * cos (x - r) -> b * sin t = k * sin (x - r) -> ellipse_at c a b r t = P (px c + k * cos x) (py c + k * sin x).
Proof.
  intros c a b r t x k C S. unfold ellipse_at, frame. rewrite C, S. replace (cos x) with (cos (x - r + r)) by (f_equal; ring). replace (sin x) with (sin (x - r + r)) by (f_equal; ring). rewrite cos_plus, sin_plus. f_equal; ring.
Qed.
Lemma ray_angle : forall c p, p <> c -> on_ray c (angle_to c p) p.
Proof.
  intros c p N. destruct (polar_angle_lemma c p) as [PL AE]. exists (distance c p). split.
  - destruct (Req_dec (distance c p) 0) as [Z|Z]; [apply distance_zero in Z; congruence|]. assert (0 <= distance c p) by apply sqrt_pos. lra.
  - rewrite AE. rewrite <- PL at 1. unfold polar. f_equal; ring.
Qed.
Lemma ray_unique : forall c a b r x p q, 0 < a -> 0 < b -> on_ellipse c a b r p -> on_ray c x p -> on_ellipse c a b r q -> on_ray c x q -> p = q.
Proof.
  intros c a b r x p q A0 B0 PO PR QO QR. set (A := arc_of c c c a b r 0). assert (X : 0 < arx A) by (unfold A; rewrite of_rx; auto). assert (Y : 0 < ary A) by (unfold A; rewrite of_ry; auto).
  transitivity (point_at_angle A x); [|symmetry]; apply arc_point_at_angle_unique; auto; apply of_on; auto.
Qed.
Lemma fix_cases : forall (cw : bool) d, - (2 * PI) <= d <= 2 * PI ->
  let s := if cw then (if Rlt_dec d 0 then d + tau else d) else d in let w := if cw then s else (if Rlt_dec 0 s then s - tau else s) in
  (exists k, (k = 0 \/ k = tau \/ k = - tau) /\ w = d + k) /\ (if cw then 0 <= w <= 2 * PI else - (2 * PI) <= w <= 0).
Proof.
  intros cw d D. cbv zeta. unfold tau. destruct cw.
  - destruct (Rlt_dec d 0); (split; [|lra]); [exists (2 * PI)|exists 0]; (split; [lra|lra]).
  - destruct (Rlt_dec 0 d); (split; [|lra]); [exists (- (2 * PI))|exists 0]; (split; [lra|lra]).
Qed.
(** The ends of an arc that [around] makes are on the ellipse, at the parameters it finds. *)
Lemma around_runs : forall p q c a b r cw, 0 < a -> 0 < b -> on_ellipse c a b r p -> on_ellipse c a b r q ->
  let A := around p q c (polar c r a) (polar c (r + tau / 4) b) cw in
  exists t0, arc_point A 0 = p /\ arc_point A 1 = q /\ runs (arc_point A) c a b r t0 (a_sweep A) /\ (if cw then 0 <= a_sweep A <= 2 * PI else - (2 * PI) <= a_sweep A <= 0).
Proof.
  intros p q c a b r cw A0 B0 PO QO A. set (Z := arc_of p q c a b r 0). assert (X : 0 < arx Z) by (unfold Z; rewrite of_rx; auto). assert (Y : 0 < ary Z) by (unfold Z; rewrite of_ry; auto).
  assert (NC : forall z, on_ellipse c a b r z -> z <> c).
  { intros z (u & v & E & U) F. rewrite F in E. unfold frame in E. apply (f_equal px) in E as E1. apply (f_equal py) in E as E2. cbn [px py] in E1, E2. pose proof (sin2_cos2 r) as SC. unfold Rsqr in SC.
    assert (u = 0) by (transitivity ((sin r * sin r + cos r * cos r) * u); [rewrite SC; ring|]; replace ((sin r * sin r + cos r * cos r) * u) with (cos r * (cos r * u - sin r * v) + sin r * (sin r * u + cos r * v)) by ring; replace (cos r * u - sin r * v) with 0 by lra; replace (sin r * u + cos r * v) with 0 by lra; ring).
    assert (v = 0) by (transitivity ((sin r * sin r + cos r * cos r) * v); [rewrite SC; ring|]; replace ((sin r * sin r + cos r * cos r) * v) with (cos r * (sin r * u + cos r * v) - sin r * (cos r * u - sin r * v)) by ring; replace (cos r * u - sin r * v) with 0 by lra; replace (sin r * u + cos r * v) with 0 by lra; ring).
    subst u v. unfold Rdiv in U. rewrite !Rmult_0_l in U. lra. }
  assert (T : forall z, on_ellipse c a b r z -> ellipse_at c a b r (t_at_point Z (point_at_angle Z (angle_at_point Z z))) = z).
  { intros z O. assert (O' : on_ellipse (a_center Z) (arx Z) (ary Z) (rotation Z) z) by (apply of_on; auto). assert (N : z <> a_center Z) by (apply NC; auto).
    destruct (arc_t_at_point Z z X Y N) as (_ & _ & RZ & TZ). rewrite <- (arc_point_at_angle_unique Z (angle_at_point Z z) z X Y O' RZ). transitivity (point_at_t Z (t_at_point Z z)); [symmetry; apply of_point; auto|apply TZ, O']. }
  pose proof (T p PO) as TP. pose proof (T q QO) as TQ. change (t_at_point Z (point_at_angle Z (angle_at_point Z p))) with (start_t Z) in TP. change (t_at_point Z (point_at_angle Z (angle_at_point Z q))) with (end_t Z) in TQ.
  assert (RS : forall z, - (PI / 2) <= t_at_point Z z <= 3 * (PI / 2)) by (intros z; unfold t_at_point; apply ellipse_t_range; auto). pose proof (RS (point_at_angle Z (angle_at_point Z (a_start Z)))) as R1. pose proof (RS (point_at_angle Z (angle_at_point Z (a_end Z)))) as R2. fold (start_t Z) in R1. fold (end_t Z) in R2.
  assert (AE : A = arc_of p q c a b r (a_sweep A)) by reflexivity.
  pose proof PI_RGT_0 as PP. assert (PER : forall t k, (k = 0 \/ k = tau \/ k = - tau) -> ellipse_at c a b r (t + k) = ellipse_at c a b r t).
  { intros t k K. assert (CS : cos (t + k) = cos t /\ sin (t + k) = sin t).
    { destruct K as [-> |[-> | ->]]; unfold tau; [rewrite Rplus_0_r; auto|split; [rewrite cos_plus, cos_2PI, sin_2PI|rewrite sin_plus, cos_2PI, sin_2PI]; ring|split; [rewrite cos_plus, cos_neg, sin_neg, cos_2PI, sin_2PI|rewrite sin_plus, cos_neg, sin_neg, cos_2PI, sin_2PI]; ring]. }
    destruct CS as [C S]. unfold ellipse_at. rewrite C, S. reflexivity. }
  destruct (fix_cases cw (end_t Z - start_t Z) ltac:(lra)) as [(k & K & KE) RG]. cbv zeta in KE, RG. change (if cw then _ else _) with (a_sweep A) in KE. 
  destruct (arc_of_runs p q c a b r (start_t Z) (a_sweep A) A0 B0) as (E0 & E1 & RU); [symmetry; exact TP|rewrite KE; replace (start_t Z + (end_t Z - start_t Z + k)) with (end_t Z + k) by ring; rewrite (PER _ _ K); symmetry; exact TQ|]. rewrite <- AE in E0, E1, RU.
  exists (start_t Z). split; [exact E0|]. split; [exact E1|]. split; [exact RU|exact RG].
Qed.
