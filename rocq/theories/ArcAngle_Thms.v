(** Property theorems about the angles and parameters of the points of an arc (C97). *)
Require Import Reals Lra List.
Require Import Verif.Base Verif.Angle_Model Verif.Angle_Spec Verif.Angle_Proofs Verif.Point_Model Verif.Point_Proofs Verif.Matrix_Model Verif.Curve_Model.
Require Import Verif.Arc_Model Verif.Arc_Spec Verif.Arc_Proofs.
Local Open Scope R_scope.

(** [p] lies on the ray from [c] in the direction [x]. *)
Definition on_ray (c : pt) (x : R) (p : pt) : Prop := exists k, 0 < k /\ p = P (px c + k * cos x) (py c + k * sin x).
(** The arc from 2,0 to 0,1 of the ellipse around the origin with radii 2 and 1. *)
Definition quarter : arc := mkArc (P 2 0) (P 0 1) (P 0 0) (P 2 0) (P 0 1) (PI / 2).
Lemma quarter_radii : arx quarter = 2 /\ ary quarter = 1.
Proof.
  unfold arx, ary, distance, quarter. cbn [a_center a_prx a_pry px py]. split.
  - replace ((0 - 2) * (0 - 2) + (0 - 0) * (0 - 0)) with (2 * 2) by ring. apply sqrt_square. lra.
  - replace ((0 - 0) * (0 - 0) + (0 - 1) * (0 - 1)) with (1 * 1) by ring. apply sqrt_square. lra.
Qed.
Lemma point_at_t_on : forall A t, 0 < arx A -> 0 < ary A -> on_ellipse (a_center A) (arx A) (ary A) (rotation A) (point_at_t A t).
Proof.
  intros A t X Y. exists (arx A * cos t), (ary A * sin t). split; [unfold point_at_t, frame; f_equal; ring|].
  replace (arx A * cos t / arx A) with (cos t) by (field; lra). replace (ary A * sin t / ary A) with (sin t) by (field; lra).
  pose proof (sin2_cos2 t). unfold Rsqr in *. lra.
Qed.
Lemma dir_point : forall A t x k, arx A * cos t = k * cos (x - rotation A) -> ary A * sin t = k * sin (x - rotation A) ->
  point_at_t A t = P (px (a_center A) + k * cos x) (py (a_center A) + k * sin x).
Proof.
  intros A t x k C S. unfold point_at_t. rewrite C, S. replace (cos x) with (cos (x - rotation A + rotation A)) by (f_equal; ring).
  replace (sin x) with (sin (x - rotation A + rotation A)) by (f_equal; ring). rewrite cos_plus, sin_plus. f_equal; ring.
Qed.

(** point_at_angle is where the ray at this angle from the centre meets the ellipse. *)
Theorem arc_point_at_angle : forall A x, 0 < arx A -> 0 < ary A ->
  on_ellipse (a_center A) (arx A) (ary A) (rotation A) (point_at_angle A x) /\ on_ray (a_center A) x (point_at_angle A x).
Proof.
  intros A x X Y. unfold point_at_angle. destruct (Req_EM_T (arx A) (ary A)) as [E|N]; (split; [now apply point_at_t_on|]).
  - exists (arx A). split; [exact X|]. apply dir_point; [reflexivity|]. now rewrite <- E.
  - destruct (ellipse_t_dir (arx A) (ary A) (x - rotation A) X Y) as (k & K & C & S). exists k. split; [exact K|]. now apply dir_point.
Qed.
Example arc_point_at_angle_ex : 0 < arx quarter /\ 0 < ary quarter. Proof. destruct quarter_radii as [-> ->]. lra. Qed.
Print Assumptions arc_point_at_angle.

(** It is the only such point. *)
Theorem arc_point_at_angle_unique : forall A x p, 0 < arx A -> 0 < ary A ->
  on_ellipse (a_center A) (arx A) (ary A) (rotation A) p -> on_ray (a_center A) x p -> p = point_at_angle A x.
Proof.
  intros A x p X Y O (k & K & E). destruct (arc_point_at_angle A x X Y) as [(u' & v' & E' & U') (k' & K' & F)].
  destruct O as (u & v & E2 & U). rewrite E2 in E. rewrite F in E'. rewrite E2, F.
  set (c := cos (rotation A)) in *. set (s := sin (rotation A)) in *. assert (CS : c * c + s * s = 1) by (unfold c, s; pose proof (sin2_cos2 (rotation A)); unfold Rsqr in *; lra).
  unfold frame in E, E' |- *. fold c s in E, E' |- *. injection E as E3 E4. injection E' as E5 E6.
  assert (u = k * (c * cos x + s * sin x)) by (transitivity ((c * c + s * s) * u); [rewrite CS; ring|]; replace (k * (c * cos x + s * sin x)) with (c * (k * cos x) + s * (k * sin x)) by ring; replace (k * cos x) with (c * u - s * v) by lra; replace (k * sin x) with (s * u + c * v) by lra; ring).
  assert (v = k * (c * sin x - s * cos x)) by (transitivity ((c * c + s * s) * v); [rewrite CS; ring|]; replace (k * (c * sin x - s * cos x)) with (c * (k * sin x) - s * (k * cos x)) by ring; replace (k * cos x) with (c * u - s * v) by lra; replace (k * sin x) with (s * u + c * v) by lra; ring).
  assert (u' = k' * (c * cos x + s * sin x)) by (transitivity ((c * c + s * s) * u'); [rewrite CS; ring|]; replace (k' * (c * cos x + s * sin x)) with (c * (k' * cos x) + s * (k' * sin x)) by ring; replace (k' * cos x) with (c * u' - s * v') by lra; replace (k' * sin x) with (s * u' + c * v') by lra; ring).
  assert (v' = k' * (c * sin x - s * cos x)) by (transitivity ((c * c + s * s) * v'); [rewrite CS; ring|]; replace (k' * (c * sin x - s * cos x)) with (c * (k' * sin x) - s * (k' * cos x)) by ring; replace (k' * cos x) with (c * u' - s * v') by lra; replace (k' * sin x) with (s * u' + c * v') by lra; ring).
  set (g := ((c * cos x + s * sin x) / arx A) ^ 2 + ((c * sin x - s * cos x) / ary A) ^ 2).
  assert (G : k ^ 2 * g = 1) by (rewrite <- U; subst u v; unfold g; field; lra).
  assert (G' : k' ^ 2 * g = 1) by (rewrite <- U'; subst u' v'; unfold g; field; lra).
  assert (k = k') as ->.
  { assert (g <> 0) by (intros Z; rewrite Z in G; lra). assert (k ^ 2 = k' ^ 2) by (apply (Rmult_eq_reg_r g); lra).
    assert ((k - k') * (k + k') = 0) as Q by (ring_simplify; lra). apply Rmult_integral in Q as [Q|Q]; lra. }
  f_equal; lra.
Qed.
Example arc_point_at_angle_unique_ex : on_ellipse (P 0 0) 2 1 0 (P 0 1) /\ on_ray (P 0 0) (PI / 2) (P 0 1).
Proof.
  split; [exists 0, 1; split; [unfold frame; rewrite cos_0, sin_0; cbn [px py]; f_equal; ring|field]|].
  exists 1. split; [lra|]. rewrite cos_PI2, sin_PI2. cbn [px py]. f_equal; ring.
Qed.
Print Assumptions arc_point_at_angle_unique.

(** angle_at_point undoes point_at_angle, up to whole turns. *)
Theorem arc_angle_at_point : forall A x, 0 < arx A -> 0 < ary A ->
  cos (angle_at_point A (point_at_angle A x)) = cos x /\ sin (angle_at_point A (point_at_angle A x)) = sin x.
Proof.
  intros A x X Y. destruct (arc_point_at_angle A x X Y) as [_ (k & K & ->)]. unfold angle_at_point.
  destruct (polar_angle_lemma (a_center A) (P (px (a_center A) + k * cos x) (py (a_center A) + k * sin x))) as [PL ->].
  set (q := P _ _) in *. set (r := distance (a_center A) q) in *. set (w := angle (a_center A) q) in *.
  assert (R0 : r = k).
  { unfold r, distance, q. cbn [px py]. match goal with |- sqrt ?e = _ => replace e with (k * k * (Rsqr (sin x) + Rsqr (cos x))) by (unfold Rsqr; ring) end.
    rewrite sin2_cos2, Rmult_1_r. apply sqrt_square. lra. }
  rewrite R0 in PL. unfold polar, q in PL. injection PL as P1 P2. split; apply (Rmult_eq_reg_r k); lra.
Qed.
Print Assumptions arc_angle_at_point.

(** point_at_t undoes t_at_point for the points of the ellipse; for any other point but the centre it gives where the
    ray to that point meets the ellipse. *)
Theorem arc_t_at_point : forall A p, 0 < arx A -> 0 < ary A -> p <> a_center A ->
  on_ellipse (a_center A) (arx A) (ary A) (rotation A) (point_at_t A (t_at_point A p)) /\
  on_ray (a_center A) (angle_at_point A p) (point_at_t A (t_at_point A p)) /\
  on_ray (a_center A) (angle_at_point A p) p /\
  (on_ellipse (a_center A) (arx A) (ary A) (rotation A) p -> point_at_t A (t_at_point A p) = p).
Proof.
  intros A p X Y NC. split; [now apply point_at_t_on|].
  assert (RP : on_ray (a_center A) (angle_at_point A p) p).
  { destruct (polar_angle_lemma (a_center A) p) as [PL AE]. exists (distance (a_center A) p). split.
    - destruct (Req_dec (distance (a_center A) p) 0) as [Z|Z]; [apply distance_zero in Z; congruence|].
      assert (0 <= distance (a_center A) p) by apply sqrt_pos. lra.
    - unfold angle_at_point. rewrite AE. rewrite <- PL at 1. unfold polar. f_equal; ring. }
  assert (RT : on_ray (a_center A) (angle_at_point A p) (point_at_t A (t_at_point A p))).
  { unfold t_at_point. destruct (ellipse_t_dir (arx A) (ary A) (angle_at_point A p - rotation A) X Y) as (k & K & C & S).
    exists k. split; [exact K|]. now apply dir_point. }
  split; [exact RT|]. split; [exact RP|]. intros O.
  transitivity (point_at_angle A (angle_at_point A p)); [|symmetry]; apply arc_point_at_angle_unique; auto. now apply point_at_t_on.
Qed.
Example arc_t_at_point_ex : P 0 1 <> a_center quarter. Proof. intros H. injection H. lra. Qed.
Print Assumptions arc_t_at_point.

(** t_at_point undoes point_at_t, up to whole turns. *)
Theorem arc_t_of_point_at_t : forall A t, 0 < arx A -> 0 < ary A ->
  cos (t_at_point A (point_at_t A t)) = cos t /\ sin (t_at_point A (point_at_t A t)) = sin t.
Proof. exact t_at_own_point. Qed.
Print Assumptions arc_t_of_point_at_t.
