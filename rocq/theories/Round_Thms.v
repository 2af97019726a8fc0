(** Property theorems about the geometry of round shapes (C121). *)
Require Import Reals Lra List Psatz.
Require Import Verif.Base Verif.Angle_Model Verif.Angle_Proofs Verif.Point_Model Verif.Point_Proofs Verif.Matrix_Model Verif.Arc_Model Verif.Arc_Spec Verif.Arc_Proofs Verif.ArcAngle_Thms Verif.Shape_Model Verif.Round_Model Verif.Round_Proofs.
Open Scope R_scope.

(** A round shape that has all attributes. *)
Definition whole_round (a b r : R) (c : pt) (m : mx) : round := mkRound (Ok a) (Ok b) (Ok r) c (SMatrix m).
(** Full statement of what follows: for Ellipse and Circle. These lack attributes, so that each method raises AttributeError. *)
Theorem round_repo_refuted : forall s, (exists rx ry c tr, s = ellipse_repo rx ry c tr) \/ (exists c tr, s = circle_repo c tr) -> forall x y p o,
  unit_matrix s = Err AttributeError /\ rpoint_at_t s x = Err AttributeError /\ rpoint s x = Err AttributeError /\ rpoint_at_angle s x = Err AttributeError /\ rt_at_point s p = Err AttributeError /\ rarc_t s x y = Err AttributeError /\ rarc_angle s x y o = Err AttributeError.
Proof.
  intros s [(rx & ry & c & tr & ->)|(c & tr & ->)] x y p o; unfold unit_matrix, rpoint, rpoint_at_t, rpoint_at_angle, rt_at_point, rangle_at_point, rarc_t, rarc_angle, rpoint_at_angle, rpoint_at_t, ellipse_repo, circle_repo; cbn.
  - repeat split; try reflexivity; destruct (Req_EM_T rx ry); try reflexivity; destruct tr; reflexivity.
  - repeat split; try reflexivity; destruct tr; reflexivity.
Qed.
Print Assumptions round_repo_refuted.

(** point_at_t runs along the ellipse, point(position) once around it, and unit_matrix maps the unit circle onto it. *)
Theorem round_unit_partial : forall a b r c m, 0 < a -> 0 < b ->
  (forall t, rpoint_at_t (whole_round a b r c m) t = Ok (ellipse_at c a b r t) /\ on_ellipse c a b r (ellipse_at c a b r t)) /\
  (forall f, rpoint (whole_round a b r c m) f = Ok (ellipse_at c a b r (2 * PI * f))) /\
  exists u, unit_matrix (whole_round a b r c m) = Ok u /\ forall t, apply_mx u (P (cos t) (sin t)) = ellipse_at c a b r t.
Proof.
  intros a b r c m A B. split; [|split].
  - intros t. split; [unfold rpoint_at_t, whole_round; cbn; rewrite round_point_at; reflexivity|apply ellipse_at_on; auto].
  - intros f. unfold rpoint, rpoint_at_t, whole_round. cbn. rewrite round_point_at. reflexivity.
  - eexists. split; [reflexivity|]. intros t. unfold post_rotate, post_scale, whole_round. cbn [c0]. destruct (at0 0 0) as [_|N]; [|exfalso; apply N; auto]. unfold apply_mx, post_translate, post_cat, mul, m_rotate, m_scale, m_translate, ident, ellipse_at, frame. cbn [px py ma mb mc md me mf r_center]. f_equal; ring.
Qed.
Print Assumptions round_unit_partial.
Example round_unit_case : 0 < 2 /\ 0 < 1. Proof. lra. Qed.

(** point_at_angle is where the ray meets the ellipse, except for a circle that is turned. *)
Theorem round_angle_partial : forall a b r c m x, 0 < a -> 0 < b -> a <> b \/ (cos r = 1 /\ sin r = 0) ->
  exists p, rpoint_at_angle (whole_round a b r c m) x = Ok p /\ on_ellipse c a b r p /\ on_ray c x p /\ forall q, on_ellipse c a b r q -> on_ray c x q -> q = p.
Proof.
  intros a b r c m x A B H. assert (G : exists t k, rpoint_at_angle (whole_round a b r c m) x = Ok (ellipse_at c a b r t) /\ 0 < k /\ ellipse_at c a b r t = P (px c + k * cos x) (py c + k * sin x)).
  { unfold rpoint_at_angle, rpoint_at_t, whole_round. cbn. destruct (Req_EM_T a b) as [E|N].
    - exists x, a. rewrite round_point_at. split; [reflexivity|]. split; [exact A|]. destruct H as [H|[C S]]; [contradiction|]. unfold ellipse_at, frame. rewrite C, S, <- E. f_equal; ring.
    - destruct (ellipse_t_dir a b (x - r) A B) as (k & K & C & S). exists (ellipse_t a b (x - r)), k. rewrite round_point_at. split; [reflexivity|]. split; [exact K|]. apply dir_at; auto. }
  destruct G as (t & k & E & K & D). exists (ellipse_at c a b r t). split; [exact E|]. assert (O : on_ellipse c a b r (ellipse_at c a b r t)) by (apply ellipse_at_on; auto). assert (Y : on_ray c x (ellipse_at c a b r t)) by (exists k; auto).
  split; [exact O|]. split; [exact Y|]. intros q Q1 Q2. apply (ray_unique c a b r x); auto.
Qed.
Print Assumptions round_angle_partial.
Example round_angle_case : 0 < 2 /\ 0 < 1 /\ (2 <> 1 \/ (cos 1 = 1 /\ sin 1 = 0)). Proof. split; [lra|]. split; [lra|]. left. lra. Qed.
(** A circle that is turned: the angle of rotation is added although it should not matter. *)
Theorem round_angle_refuted : exists a r c x p, 0 < a /\ forall m, rpoint_at_angle (whole_round a a r c m) x = Ok p /\ ~ on_ray c x p.
Proof.
  exists 1, (PI / 2), (P 0 0), 0, (P 0 1). split; [lra|]. intros m. split.
  - unfold rpoint_at_angle, rpoint_at_t, whole_round. cbn. destruct (Req_EM_T 1 1) as [_|N]; [|exfalso; apply N; auto]. unfold round_point. rewrite cos_0, sin_0, cos_PI2, sin_PI2. cbn [px py]. do 2 f_equal; ring.
  - intros (k & K & E). rewrite cos_0, sin_0 in E. apply (f_equal py) in E. cbn [px py] in E. lra.
Qed.
Print Assumptions round_angle_refuted.

(** t_at_point is the parameter of the point in the same direction, and of the point itself where it is on the ellipse. *)
Theorem round_t_at_point_partial : forall a b r c m p, 0 < a -> 0 < b -> p <> c ->
  exists t x, rt_at_point (whole_round a b r c m) p = Ok t /\ rangle_at_point (whole_round a b r c m) p = Ok x /\ on_ray c x p /\ on_ray c x (ellipse_at c a b r t) /\
    (on_ellipse c a b r p -> rpoint_at_t (whole_round a b r c m) t = Ok p).
Proof.
  intros a b r c m p A B N. exists (ellipse_t a b (angle_to c p - r)), (angle_to c p). split; [reflexivity|]. split; [reflexivity|]. pose proof (ray_angle c p N) as RA. split; [exact RA|].
  destruct (ellipse_t_dir a b (angle_to c p - r) A B) as (k & K & C & S). assert (Y : on_ray c (angle_to c p) (ellipse_at c a b r (ellipse_t a b (angle_to c p - r)))) by (exists k; split; [exact K|apply dir_at; auto]).
  split; [exact Y|]. intros O. unfold rpoint_at_t, whole_round. cbn. rewrite round_point_at. f_equal. apply (ray_unique c a b r (angle_to c p)); auto. apply ellipse_at_on; auto.
Qed.
Print Assumptions round_t_at_point_partial.
Example round_t_at_point_case : 0 < 2 /\ 0 < 1 /\ P 2 0 <> P 0 0 /\ on_ellipse (P 0 0) 2 1 0 (P 2 0).
Proof. split; [lra|]. split; [lra|]. split; [intros H; injection H; lra|]. exists 2, 0. split; [unfold frame; rewrite cos_0, sin_0; cbn [px py]; f_equal; ring|field]. Qed.

(** arc_t is the piece of the ellipse from t0 to t1, however often that is around. *)
Theorem round_arc_t_partial : forall a b r c m t0 t1, 0 < a -> 0 < b ->
  exists A, rarc_t (whole_round a b r c m) t0 t1 = Ok A /\ arc_point A 0 = ellipse_at c a b r t0 /\ arc_point A 1 = ellipse_at c a b r t1 /\
    forall f, arc_point A f = ellipse_at c a b r (t0 + f * (t1 - t0)).
Proof.
  intros a b r c m t0 t1 A B. eexists. split; [reflexivity|]. cbn. rewrite !round_point_at. apply arc_of_runs; auto. f_equal. ring.
Qed.
Print Assumptions round_arc_t_partial.
Example round_arc_t_case : 0 < 2 /\ 0 < 1. Proof. lra. Qed.

(** arc_angle is a piece of the ellipse from the point at one angle to the point at the other, in the direction asked for, and at most
    once around. *)
Theorem round_arc_angle_partial : forall a b r c m a0 a1 o, 0 < a -> 0 < b ->
  let ccw := match o with Some v => v | None => if Rlt_dec a1 a0 then true else false end in
  exists A p q t0 w, rarc_angle (whole_round a b r c m) a0 a1 o = Ok A /\
    rpoint_at_angle (whole_round a b r c m) a0 = Ok p /\ rpoint_at_angle (whole_round a b r c m) a1 = Ok q /\ arc_point A 0 = p /\ arc_point A 1 = q /\
    (forall f, arc_point A f = ellipse_at c a b r (t0 + f * w)) /\ (if ccw then - (2 * PI) <= w <= 0 else 0 <= w <= 2 * PI) /\ a_sweep A = w.
Proof.
  intros a b r c m a0 a1 o A B ccw. assert (PA : forall x, exists p, rpoint_at_angle (whole_round a b r c m) x = Ok p /\ on_ellipse c a b r p).
  { intros x. unfold rpoint_at_angle, rpoint_at_t, whole_round. cbn. destruct (Req_EM_T a b); rewrite round_point_at; eexists; (split; [reflexivity|apply ellipse_at_on; auto]). }
  destruct (PA a0) as (p & EP & OP). destruct (PA a1) as (q & EQ & OQ). unfold rarc_angle. fold ccw. rewrite EP, EQ. cbn [rbind]. unfold whole_round at 1 2 3 4. cbn [r_rx r_ry r_rotation r_center rbind].
  set (X := around p q c (polar c r a) (polar c (r + tau / 4) b) (negb ccw)). destruct (around_runs p q c a b r (negb ccw) A B OP OQ) as (t0 & E0 & E1 & RU & SG). fold X in E0, E1, RU, SG.
  exists X, p, q, t0, (a_sweep X). split; [reflexivity|]. split; [reflexivity|]. split; [reflexivity|]. split; [exact E0|]. split; [exact E1|]. split; [exact RU|]. split; [|reflexivity]. destruct ccw; exact SG.
Qed.
Print Assumptions round_arc_angle_partial.
Example round_arc_angle_case : 0 < 2 /\ 0 < 1. Proof. lra. Qed.
(** "default is smaller angle": from 0 to three quarters it takes the long way, though the other way is shorter. *)
Theorem round_arc_default_refuted : exists a r c a0 a1, 0 < a /\ forall m, exists A B, rarc_angle (whole_round a a r c m) a0 a1 None = Ok A /\ rarc_angle (whole_round a a r c m) a0 a1 (Some true) = Ok B /\
  arc_point A 0 = arc_point B 0 /\ arc_point A 1 = arc_point B 1 /\ Rabs (a_sweep B) < PI < Rabs (a_sweep A).
Proof.
  exists 1, 0, (P 0 0), 0, (3 * (PI / 2)). split; [lra|]. intros m. pose proof PI_RGT_0 as PP.
  destruct (round_arc_angle_partial 1 1 0 (P 0 0) m 0 (3 * (PI / 2)) None ltac:(lra) ltac:(lra)) as (A & p & q & t0 & w & EA & EP & EQ & A0 & A1 & RU & SG & SW).
  destruct (round_arc_angle_partial 1 1 0 (P 0 0) m 0 (3 * (PI / 2)) (Some true) ltac:(lra) ltac:(lra)) as (B & p' & q' & t0' & w' & EB & EP' & EQ' & B0 & B1 & RU' & SG' & SW').
  rewrite EP in EP'. injection EP' as <-. rewrite EQ in EQ'. injection EQ' as <-. exists A, B. split; [exact EA|]. split; [exact EB|]. split; [congruence|]. split; [congruence|].
  destruct (Rlt_dec (3 * (PI / 2)) 0); [lra|]. clear EA EB.
  assert (PV : p = P 1 0 /\ q = P 0 (-1)).
  { unfold rpoint_at_angle, rpoint_at_t, whole_round in EP, EQ. cbn in EP, EQ. destruct (Req_EM_T 1 1) as [_|N]; [|exfalso; apply N; auto]. injection EP as <-. injection EQ as <-. unfold round_point. cbn [px py]. rewrite cos_0, sin_0, cos_3PI2, sin_3PI2. split; f_equal; ring. }
  destruct PV as [-> ->]. assert (D : forall f t v, f 0 = P 1 0 -> f 1 = P 0 (-1) -> (forall x, f x = ellipse_at (P 0 0) 1 1 0 (t + x * v)) -> sin v = -1).
  { intros f t v F0 F1 F. rewrite F in F0, F1. unfold ellipse_at, frame in F0, F1. rewrite cos_0, sin_0 in F0, F1. cbn [px py] in F0, F1. injection F0 as X0 Y0. injection F1 as X1 Y1. replace (t + 0 * v) with t in * by ring. replace (t + 1 * v) with (t + v) in * by ring.
    rewrite sin_plus in Y1. assert (CT : cos t = 1) by lra. assert (ST : sin t = 0) by lra. rewrite CT, ST in Y1. lra. }
  pose proof (D _ _ _ A0 A1 RU) as S1. pose proof (D _ _ _ B0 B1 RU') as S2. rewrite SW, SW'. split.
  - rewrite Rabs_left1 by lra. destruct (Rlt_dec (- w') PI) as [|NL]; [auto|]. exfalso. assert (H : sin (w' + 2 * PI) = sin w') by (rewrite sin_plus, cos_2PI, sin_2PI; ring). pose proof (sin_ge_0 (w' + 2 * PI)). lra.
  - rewrite Rabs_right by lra. destruct (Rlt_dec PI w) as [|NL]; [auto|]. exfalso. pose proof (sin_ge_0 w). lra.
Qed.
Print Assumptions round_arc_default_refuted.

(** The approximate circumference: right for circles, the same for both orders of the radii, and between the circumferences of the
    circles inside and outside. *)
Theorem round_length_partial : forall a b r c m, 0 < a -> 0 < b ->
  exists l, ramanujan_length (whole_round a b r c m) = Ok l /\ ramanujan_length (whole_round b a r c m) = Ok l /\
    2 * PI * Rmin a b <= l <= 2 * PI * Rmax a b /\ PI * (a + b) <= l /\ (a = b -> l = 2 * PI * a).
Proof.
  assert (G : forall a b, 0 < b <= a -> let h := (a - b) ^ 2 / (a + b) ^ 2 in let l := PI * (a + b) * (1 + 3 * h / (10 + sqrt (4 - 3 * h))) in
    ~ 4 - 3 * h < 0 /\ 2 * PI * b <= l <= 2 * PI * a /\ PI * (a + b) <= l /\ (a = b -> l = 2 * PI * a)).
  { intros a b H h l. pose proof PI_RGT_0 as PP. set (e := (a - b) / (a + b)). assert (HE : h = e * e) by (unfold h, e; field; lra).
    assert (E0 : 0 <= e) by (unfold e; apply Rmult_le_pos; [lra|left; apply Rinv_0_lt_compat; lra]). assert (EA : (a + b) * (1 + e) = 2 * a) by (unfold e; field; lra). assert (E1 : e <= 1) by nra.
    assert (H1 : 0 <= h <= 1) by (rewrite HE; nra). split; [lra|]. set (s := sqrt (4 - 3 * h)) in *. assert (S0 : 0 <= s) by apply sqrt_pos. set (k := 3 * h / (10 + s)) in *.
    assert (K0 : 0 <= k) by (unfold k; apply Rmult_le_pos; [lra|left; apply Rinv_0_lt_compat; lra]). assert (K1 : k <= e).
    { unfold k. apply Rmult_le_reg_r with (10 + s); [lra|]. unfold Rdiv. rewrite Rmult_assoc, Rinv_l by lra. rewrite HE. nra. }
    assert (PA : 0 < PI * (a + b)) by (apply Rmult_lt_0_compat; lra). assert (L : PI * (a + b) <= l) by (unfold l; fold s; fold k; nra).
    split; [split|split; [exact L|]].
    - apply Rle_trans with (2 := L). nra.
    - unfold l. fold s. fold k. apply Rle_trans with (PI * (a + b) * (1 + e)); [apply Rmult_le_compat_l; lra|]. replace (PI * (a + b) * (1 + e)) with (PI * ((a + b) * (1 + e))) by ring. rewrite EA. lra.
    - intros EQ. assert (Z : h = 0) by (rewrite HE; unfold e; rewrite EQ; field; lra). assert (KZ : k = 0) by (unfold k; rewrite Z; unfold Rdiv; ring). change l with (PI * (a + b) * (1 + k)). rewrite KZ, EQ. ring. }
  intros a b r c m A B. unfold ramanujan_length, whole_round. cbn [r_rx r_ry rbind].
  destruct (Rlt_dec a b) as [L|NL].
  - destruct (Rlt_dec b a) as [|_]; [lra|]. destruct (Req_EM_T (b + a) 0) as [|_]; [lra|]. destruct (G b a ltac:(lra)) as (N & R1 & R2 & R3). cbv zeta in *. destruct (Rlt_dec _ _) as [W|_]; [contradiction|]. eexists. split; [reflexivity|]. split; [reflexivity|].
    rewrite Rmin_left, Rmax_right by lra. split; [exact R1|]. split; [replace (a + b) with (b + a) at 1 by ring; exact R2|]. intros E. lra.
  - destruct (Req_EM_T (a + b) 0) as [|_]; [lra|]. destruct (G a b ltac:(lra)) as (N & R1 & R2 & R3). cbv zeta in *. destruct (Rlt_dec (4 - _) _) as [W|_]; [contradiction|]. destruct (Rlt_dec b a) as [L2|NL2].
    + destruct (Req_EM_T (a + b) 0) as [|_]; [lra|]. destruct (Rlt_dec (4 - _) _) as [W|_]; [contradiction|]. eexists. split; [reflexivity|]. split; [reflexivity|]. rewrite Rmin_right, Rmax_left by lra. auto.
    + assert (a = b) as -> by lra. destruct (Req_EM_T (b + b) 0) as [|_]; [lra|]. destruct (Rlt_dec (4 - _) _) as [W|_]; [contradiction|]. eexists. split; [reflexivity|]. split; [reflexivity|]. rewrite Rmin_right, Rmax_left by lra. auto.
Qed.
Print Assumptions round_length_partial.
Example round_length_case : 0 < 2 /\ 0 < 1. Proof. lra. Qed.
