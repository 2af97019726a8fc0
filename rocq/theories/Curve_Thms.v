(** Theorems about points, boxes and lengths of lines and Bezier curves: C49, C51-C55. *)
Require Import Reals List Lra Lia Psatz Bool.
From Coquelicot Require Import Coquelicot.
Require Import Verif.Point_Model Verif.Matrix_Model Verif.Curve_Model Verif.Curve_Spec Verif.Curve_Proofs Verif.CurveLen_Proofs.
Import ListNotations.
Open Scope R_scope.

Lemma draws_not_move : forall s, draws s -> forall o e, s <> GMove o e.
Proof. intros s D o e ->. exact D. Qed.

(** * C49 *)
Theorem segment_transform_point : forall np s m t, point np (g_mul s m) t = affine m (point np s t).
Proof. intros. rewrite point_mul. unfold affine, apply_mx. f_equal; ring. Qed.
Example segment_transform_point_ex :
  point false (g_mul (GQuad (P 0 0) (P 1 0) (P 2 2)) (M 2 0 0 3 1 1)) (1 / 2) = P 3 (5 / 2).
Proof. unfold point, g_mul, quad_point, quad1, apply_mx. simpl. f_equal; field. Qed.
Print Assumptions segment_transform_point.

(** * C51 *)
Theorem segment_end_points : forall np s a, draws s -> g_start s = Some a -> point np s 0 = a /\ point np s 1 = g_end s.
Proof. intros np s a D E. split; [apply point_0; auto; now apply draws_not_move | apply point_1]. Qed.
Theorem segment_reverse_point : forall np s t, draws s -> point np (g_reverse s) t = point np s (1 - t).
Proof. intros np s t D. apply point_reverse. now apply draws_not_move. Qed.
(** The curves are those of De Casteljau's construction, lines are traversed evenly. *)
Theorem segment_points : forall np a c d b t, 0 <= t <= 1 ->
  point np (GLine a b) t = mix t a b /\ point np (GClose a b) t = mix t a b /\
  point np (GQuad a c b) t = casteljau2 a c b t /\ point np (GCubic a c d b) t = casteljau3 a c d b t.
Proof.
  intros np a c d b t T. split; [|split; [|split]].
  - now apply lin_point_inside.
  - now apply lin_point_inside.
  - apply quad_point_casteljau.
  - apply cubic_point_casteljau.
Qed.
Example segment_end_points_ex : let s := GCubic (P 0 0) (P 0 1) (P 1 1) (P 1 0) in
  draws s /\ g_start s = Some (P 0 0) /\ point true s (1 / 4) <> point true s (3 / 4).
Proof.
  split; [exact I|]. split; [reflexivity|]. unfold point, cubic_point, cubic1. intros E. apply (f_equal px) in E. simpl in E. lra.
Qed.
Print Assumptions segment_end_points.
Print Assumptions segment_reverse_point.
Print Assumptions segment_points.

(** * C52 *)
Theorem segment_in_control_box : forall np s t, 0 <= t <= 1 ->
  among (map px (controls s)) (px (point np s t)) /\ among (map py (controls s)) (py (point np s t)).
Proof. exact point_among. Qed.
Example segment_in_control_box_ex : 0 <= 1 / 2 <= 1 /\ py (point true (GQuad (P 0 0) (P 1 4) (P 2 0)) (1 / 2)) = 2.
Proof. split; [lra|]. unfold point, quad_point, quad1. simpl. lra. Qed.
Print Assumptions segment_in_control_box.

(** * C53 *)
(** Every side of the box is touched, whatever the segment. *)
Theorem bbox_touched : forall np s, draws s ->
  let touch (f : pt -> R) v := exists t, 0 <= t <= 1 /\ f (point np s t) = v in
  touch px (xmin (bbox s)) /\ touch px (xmax (bbox s)) /\ touch py (ymin (bbox s)) /\ touch py (ymax (bbox s)).
Proof.
  intros np s D touch.
  assert (LIN : forall (f : pt -> R) a b, (forall t, f (mix t a b) = (1 - t) * f a + t * f b) ->
    (exists t, 0 <= t <= 1 /\ f (lin_point np a b t) = rmin (f a) [f b]) /\ (exists t, 0 <= t <= 1 /\ f (lin_point np a b t) = rmax (f a) [f b])).
  { intros f a b E. destruct (linear_range (f a) (f b)) as (_ & (t & T & A) & (u & U & B)). split.
    - exists t. rewrite lin_point_inside by auto. rewrite E. auto.
    - exists u. rewrite lin_point_inside by auto. rewrite E. auto. }
  destruct s; try easy; cbn [point bbox] in *; unfold touch; cbn [xmin xmax ymin ymax bbox_of quad_bbox cubic_bbox map].
  - destruct (LIN px a b) as [X1 X2]; [reflexivity|]. destruct (LIN py a b) as [Y1 Y2]; [reflexivity|]. auto.
  - destruct (LIN px a b) as [X1 X2]; [reflexivity|]. destruct (LIN py a b) as [Y1 Y2]; [reflexivity|]. auto.
  - destruct (quad_values_range (px a) (px c) (px b)) as (_ & X1 & X2). destruct (quad_values_range (py a) (py c) (py b)) as (_ & Y1 & Y2). auto.
  - destruct (cubic_values_touched (px a) (px c) (px d) (px b)) as (X1 & X2). destruct (cubic_values_touched (py a) (py c) (py d) (py b)) as (Y1 & Y2). auto.
Qed.
(** Lines and quadratic curves. *)
Theorem bbox_range : forall np s, match s with GLine _ _ | GClose _ _ | GQuad _ _ _ => True | _ => False end ->
  range (fun t => px (point np s t)) (xmin (bbox s)) (xmax (bbox s)) /\ range (fun t => py (point np s t)) (ymin (bbox s)) (ymax (bbox s)).
Proof.
  intros np s D. destruct s; try easy; cbn [point bbox].
  - split; (eapply range_ext; [|apply linear_range]); intros t T; rewrite lin_point_inside by auto; reflexivity.
  - split; (eapply range_ext; [|apply linear_range]); intros t T; rewrite lin_point_inside by auto; reflexivity.
  - split; apply quad_values_range.
Qed.
(** Full statement: as bbox_range, for every cubic curve. Proved where, on each axis, the third difference of the
    controls is at least 1e-12 or no inner point is stationary. *)
Definition regular (a0 a1 a2 a3 : R) : Prop :=
  / 10 ^ 12 <= Rabs (a0 - 3 * a1 + 3 * a2 - a3) \/ (forall c, 0 < c < 1 -> ~ stationary a0 a1 a2 a3 c).
Theorem bbox_cubic_partial : forall np a c d b,
  let s := GCubic a c d b in
  (regular (px a) (px c) (px d) (px b) ->
   range (fun t => px (point np s t)) (xmin (bbox s)) (xmax (bbox s))) /\
  (regular (py a) (py c) (py d) (py b) ->
   range (fun t => py (point np s t)) (ymin (bbox s)) (ymax (bbox s))).
Proof. intros np a c d b s. split; intros H; exact (cubic_values_range _ _ _ _ H). Qed.
Example bbox_cubic_ex : regular 0 4 (-3) 1 /\ regular 0 1 2 3.
Proof.
  split.
  - left. rewrite Rabs_left by lra. assert (0 < / 10 ^ 12 <= 1); [|lra]. split; [apply Rinv_0_lt_compat, pow_lt; lra|].
    rewrite <- Rinv_1. apply Rinv_le_contravar; [lra|]. apply pow_R1_Rle. lra.
  - right. intros c C. unfold stationary. lra.
Qed.
(** A parabola written as a cubic curve, x = (t - 1/4)^2: the box begins at x = 1/16, the curve at x = 0. *)
Theorem bbox_cubic_refuted : exists s t, draws s /\ 0 <= t <= 1 /\ px (point true s t) < xmin (bbox s).
Proof.
  exists (GCubic (P (1 / 16) 0) (P (- (5 / 48)) 1) (P (1 / 16) 2) (P (9 / 16) 3)), (1 / 4).
  split; [exact I|]. split; [lra|]. cbn [point bbox cubic_bbox xmin cubic_point px fst cubic_minmax].
  assert (E : extremizers (1 / 16) (- (5 / 48)) (1 / 16) (9 / 16) = [1; 1 / 2]).
  { unfold extremizers. destruct (Rle_dec _ _) as [H|_]; auto. exfalso.
    replace (1 / 16 - 3 * - (5 / 48) + 3 * (1 / 16) - 9 / 16) with 0 in H by field. rewrite Rabs_R0 in H.
    assert (0 < / 10 ^ 12) by (apply Rinv_0_lt_compat, pow_lt; lra). lra. }
  unfold cubic_minmax. rewrite E. cbn [fst map rmin]. unfold cubic1.
  unfold Rmin. repeat destruct (Rle_dec _ _); lra.
Qed.
Print Assumptions bbox_touched.
Print Assumptions bbox_range.
Print Assumptions bbox_cubic_partial.
Print Assumptions bbox_cubic_refuted.

(** * C54 *)
(** Full statement: for every segment, also one of no length, where the code returns the number 0. *)
Theorem closest_point_partial : forall np a b p, a <> b ->
  exists q t, closest np a b p true = Some q /\ 0 <= t <= 1 /\ q = mix t a b /\
    forall s, 0 <= s <= 1 -> dist p q <= dist p (mix s a b).
Proof.
  intros np a b p N. destruct (closest np a b p true) as [q|] eqn:E.
  - destruct (closest_bounded _ _ _ _ _ E) as (t & A & B & C). eauto 6.
  - apply closest_none in E. easy.
Qed.
Theorem closest_degenerate_refuted : exists a p, closest true a a p true = None /\ closest false a a p true = None.
Proof. exists (P 1 1), (P 2 2). split; now apply closest_none. Qed.
(** Without bounds, and without numpy: closest on the whole line. *)
Theorem closest_on_line : forall a b p, a <> b ->
  exists q t, closest false a b p false = Some q /\ q = mix t a b /\ forall s, dist p q <= dist p (mix s a b).
Proof.
  intros a b p N. destruct (closest false a b p false) as [q|] eqn:E.
  - destruct (closest_unbounded _ _ _ _ E) as (t & A & B). eauto 6.
  - apply closest_none in E. easy.
Qed.
(** With numpy the bounds are applied even when they are not to be respected. *)
Theorem closest_on_line_refuted : exists a b p q, a <> b /\ closest true a b p false = Some q /\ q = b /\ p = mix 2 a b.
Proof.
  exists (P 0 0), (P 1 0), (P 2 0), (P 1 0). split; [intros E; inversion E; lra|]. split; [|split; [auto|unfold mix; simpl; f_equal; ring]].
  unfold closest. simpl. destruct (Req_EM_T _ _) as [Z|_]; [lra|]. unfold lin_point, interp. simpl.
  destruct (Rle_dec _ 0) as [Z|_]; [lra|]. destruct (Rle_dec 1 _) as [_|Z]; [reflexivity|lra].
Qed.
Print Assumptions closest_point_partial.
Print Assumptions closest_degenerate_refuted.
Print Assumptions closest_on_line.
Print Assumptions closest_on_line_refuted.

(** * C55 *)
Theorem line_length_distance : forall a b, linear_length a b = dist a b /\ arc_length (towards a b) (linear_length a b).
Proof.
  intros a b. rewrite linear_length_dist. split; auto. unfold arc_length.
  assert (H : moves (towards a b) (fun _ => px b - px a) (fun _ => py b - py a)).
  { split; [|split; [|split]]; intros t.
    - unfold towards. simpl. auto_derive; auto. ring.
    - unfold towards. simpl. auto_derive; auto. ring.
    - apply continuous_const.
    - apply continuous_const. }
  apply is_RInt_ext with (f := fun _ => dist a b).
  - intros t _. rewrite (moves_speed _ _ _ H), dist_sym, dist_hypot. reflexivity.
  - pose proof (is_RInt_const 0 1 (dist a b)) as I. unfold scal in I. simpl in I. unfold mult in I. simpl in I.
    replace ((1 - 0) * dist a b) with (dist a b) in I by ring. exact I.
Qed.
(** Quadratic curves: the closed formula is the length of the curve. *)
Theorem quad_length_exact : forall a c b, bend a c b = 0 \/ / 10 ^ 10 <= bend a c b -> arc_length (quad_point a c b) (quad_length a c b).
Proof.
  intros a c b H. destruct (quad_length_exists a c b) as (L & A & _ & E). rewrite E; auto.
  rewrite <- bend_hypot. destruct H; auto.
Qed.
Theorem quad_length_close : forall a c b, exists L, arc_length (quad_point a c b) L /\ Rabs (quad_length a c b - L) <= / 10 ^ 10.
Proof. intros a c b. destruct (quad_length_exists a c b) as (L & A & B & _). eauto. Qed.
Example quad_length_ex : / 10 ^ 10 <= bend (P 0 0) (P 1 2) (P 2 0).
Proof.
  rewrite bend_hypot. unfold hypot. simpl px. simpl py. replace ((0 - 2 * 1 + 2) * (0 - 2 * 1 + 2) + (0 - 2 * 2 + 0) * (0 - 2 * 2 + 0)) with (4 * 4) by ring.
  rewrite sqrt_square by lra. assert (/ 10 ^ 10 <= 1); [|lra]. rewrite <- Rinv_1. apply Rinv_le_contravar; [lra|]. apply pow_R1_Rle. lra.
Qed.
(** A curve shorter than 1e-10 may be given no length. *)
Theorem quad_length_refuted : exists a c b, quad_length a c b = 0 /\ exists L, 0 < L /\ arc_length (quad_point a c b) L.
Proof.
  assert (E : 0 < / 10 ^ 11) by (apply Rinv_0_lt_compat, pow_lt; lra).
  assert (E2 : / 10 ^ 11 < / 10 ^ 10).
  { apply Rinv_lt_contravar; [apply Rmult_lt_0_compat; apply pow_lt; lra | apply Rlt_pow; [lra|lia]]. }
  set (e := / 10 ^ 11) in *. set (h := / 10 ^ 10) in *.
  exists (P 0 0), (P 0 0), (P e 0). split.
  - unfold quad_length. simpl px. simpl py. fold h.
    replace (0 - 2 * 0 + e) with e by ring. replace (0 - 2 * 0 + 0) with 0 by ring. replace (2 * (0 - 0)) with 0 by ring.
    replace (4 * (e * 0 + 0 * 0)) with 0 by ring. replace (0 ^ 2 + 0 ^ 2) with 0 by ring.
    assert (H0 : hypot 0 0 = 0) by (unfold hypot; replace (0 * 0 + 0 * 0) with 0 by ring; apply sqrt_0).
    assert (He : hypot e 0 = e) by (unfold hypot; replace (e * e + 0 * 0) with (e * e) by ring; apply sqrt_square; lra).
    rewrite H0, He, sqrt_0. destruct (Rlt_dec e h); [|lra].
    destruct (Req_EM_T (sqrt _) 0); auto. destruct (Req_EM_T _ 0) as [|N]; auto. exfalso. apply N. unfold Rdiv. ring.
  - destruct (moves_length _ _ _ (quad_moves (P 0 0) (P 0 0) (P e 0)) 0 1 ltac:(lra)) as (L & A & B). exists L. split; auto.
    eapply Rlt_le_trans; [|exact B]. rewrite dist_hypot. unfold quad_point, quad1. simpl.
    match goal with |- 0 < hypot ?x ?y => replace x with (- e) by ring; replace y with 0 by ring end.
    unfold hypot. apply sqrt_lt_R0. assert (0 < e * e) by (apply Rmult_lt_0_compat; auto). lra.
Qed.
(** Cubic curves without scipy: for any positive error the subdivision ends (with at most [max min_depth k] levels)
    with the length of a polygon inscribed in the curve in steps of at most 1 / 2^(min_depth + 1), between the chord and
    the length of the curve, which is at most that of the control polygon. *)
Theorem cubic_length_subdivision : forall a c d b error min_depth k fuel,
  0 < error -> 3 * polygon a [c; d; b] <= error * 2 ^ k -> (Nat.max min_depth k < fuel)%nat ->
  exists l L, cubic_length fuel a c d b error min_depth = Some l /\ arc_length (cubic_point a c d b) L /\
    dist a b <= l <= L /\ L <= polygon a [c; d; b] /\ L - l <= 6 * (bend a c d + bend c d b) / 2 ^ S min_depth /\
    exists ts, steps (/ 2 ^ S min_depth) 0 ts 1 /\ l = polygon a (map (cubic_point a c d b) ts).
Proof. exact cubic_length_spec. Qed.
Example cubic_length_ex : 0 < / 10 ^ 12 /\ 3 * polygon (P 0 0) [P 0 1; P 1 1; P 1 0] <= / 10 ^ 12 * 2 ^ 44.
Proof.
  assert (D1 : forall x y, dist (P x y) (P x (y + 1)) = 1) by (intros; rewrite dist_hypot; unfold hypot; simpl; replace (_ + _) with (1 * 1) by ring; apply sqrt_square; lra).
  assert (D2 : forall x y, dist (P x y) (P (x + 1) y) = 1) by (intros; rewrite dist_hypot; unfold hypot; simpl; replace (_ + _) with (1 * 1) by ring; apply sqrt_square; lra).
  pose proof (D1 0 0) as A. pose proof (D2 0 1) as B. pose proof (D1 1 0) as C. rewrite Rplus_0_l in A, B, C. rewrite dist_sym in C.
  split; [apply Rinv_0_lt_compat, pow_lt; lra|]. rewrite polygon3, A, B, C. lra.
Qed.
(** Any error above zero can be used: a level exists. *)
Theorem cubic_length_ends : forall a c d b error min_depth, 0 < error ->
  exists n, forall fuel, (n <= fuel)%nat -> exists l, cubic_length fuel a c d b error min_depth = Some l.
Proof.
  intros a c d b error md E.
  destruct (Pow_x_infinity 2 ltac:(rewrite Rabs_pos_eq; lra) (3 * polygon a [c; d; b] / error)) as (k & K).
  exists (S (Nat.max md k)). intros fuel F.
  destruct (cubic_length_spec a c d b error md k fuel E) as (l & L & H & _).
  - specialize (K k (Nat.le_refl _)). rewrite Rabs_pos_eq in K by (apply pow_le; lra).
    apply Rge_le in K. apply (Rmult_le_compat_l error) in K; [|lra]. replace (error * (3 * polygon a [c; d; b] / error)) with (3 * polygon a [c; d; b]) in K by (field; lra). exact K.
  - lia.
  - eauto.
Qed.
(** With scipy: what is handed to the integrator is the speed of the curve. *)
Theorem cubic_length_integrand : forall a c d b t, abs_derivative a c d b t = speed (cubic_point a c d b) t.
Proof. exact cubic_abs_derivative. Qed.
Print Assumptions line_length_distance.
Print Assumptions quad_length_exact.
Print Assumptions quad_length_close.
Print Assumptions quad_length_refuted.
Print Assumptions cubic_length_subdivision.
Print Assumptions cubic_length_ends.
Print Assumptions cubic_length_integrand.
