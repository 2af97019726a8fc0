(** Proofs about the parameters of arcs. *)
Require Import Reals ZArith List Bool Lra Lia Psatz.
Require Import Verif.Base Verif.Angle_Model Verif.Angle_Proofs Verif.Point_Model Verif.Point_Proofs Verif.Matrix_Model Verif.Curve_Model.
Require Import Verif.Arc_Model Verif.Arc_Spec.
Import ListNotations.
Open Scope R_scope.

Lemma sq_pos : forall x, 0 <= x * x. Proof. apply Rle_0_sqr. Qed.
Lemma cs1 : forall t, cos t * cos t + sin t * sin t = 1.
Proof. intros t. pose proof (sin2_cos2 t) as H. unfold Rsqr in H. lra. Qed.

(** * The eccentric angle of a direction *)
Lemma turn_period : forall x k, cos (x + tau * IZR k) = cos x /\ sin (x + tau * IZR k) = sin x.
Proof.
  intros x k. assert (N : forall n y, cos (y + tau * INR n) = cos y /\ sin (y + tau * INR n) = sin y).
  { intros n y. unfold tau. replace (y + 2 * PI * INR n) with (y + 2 * INR n * PI) by ring. split; [apply cos_period|apply sin_period]. }
  destruct (Z_le_gt_dec 0 k) as [K|K].
  - destruct (N (Z.to_nat k) x) as [A B]. rewrite INR_IZR_INZ, Z2Nat.id in A, B by auto. auto.
  - destruct (N (Z.to_nat (- k)) (x + tau * IZR k)) as [A B]. rewrite INR_IZR_INZ, Z2Nat.id in A, B by lia.
    rewrite opp_IZR in A, B. replace (x + tau * IZR k + tau * - IZR k) with x in A, B by ring. auto.
Qed.
Lemma rmod_turns : forall x, exists k, x = rmod x tau + tau * IZR k.
Proof. intros x. exists (Int_part (x / tau)). unfold rmod. ring. Qed.
Lemma cos_abs : forall x, cos (Rabs x) = cos x.
Proof. intros x. unfold Rabs. destruct (Rcase_abs x); auto. apply cos_neg. Qed.
Lemma rmod_cos : forall x, cos (rmod (Rabs x) tau) = cos x /\ sin (rmod (Rabs x) tau) = (if Rlt_dec x 0 then - sin x else sin x).
Proof.
  intros x. destruct (rmod_turns (Rabs x)) as [k K]. destruct (turn_period (rmod (Rabs x) tau) k) as [C S]. rewrite <- K in C, S. rewrite <- C, <- S.
  split; [apply cos_abs|]. unfold Rabs. destruct (Rcase_abs x), (Rlt_dec x 0); try lra. apply sin_neg.
Qed.
(** [w] is one of the angles the quadrant is corrected for. *)
Lemma quadrant : forall w, 0 <= w < tau ->
  (cos w > 0 -> ~ (tau / 4 < w <= 3 * (tau / 4))) /\ (cos w < 0 -> tau / 4 < w <= 3 * (tau / 4)) /\
  (cos w = 0 -> (w = tau / 4 /\ sin w = 1) \/ (w = 3 * (tau / 4) /\ sin w = -1)).
Proof.
  intros w W. unfold tau in *. assert (PP := PI_RGT_0).
  replace (2 * PI / 4) with (PI / 2) by lra.
  assert (Q : (w < PI / 2 -> 0 < cos w) /\ (PI / 2 < w < 3 * (PI / 2) -> cos w < 0) /\ (3 * (PI / 2) < w -> 0 < cos w)).
  { split; [|split]; intros H.
    - apply cos_gt_0; lra.
    - apply cos_lt_0; lra.
    - replace w with ((w - 2 * PI) + 2 * INR 1 * PI) by (cbn; ring). rewrite cos_period. apply cos_gt_0; lra. }
  destruct Q as (Q1 & Q2 & Q3). assert (C1 : cos (PI / 2) = 0) by apply cos_PI2. assert (C3 : cos (3 * (PI / 2)) = 0) by (apply cos_3PI2).
  split; [|split].
  - intros H [A B]. destruct (Req_dec w (3 * (PI / 2))) as [->|N]; [lra|]. assert (cos w < 0) by (apply Q2; lra). lra.
  - intros H. destruct (Rlt_dec w (PI / 2)) as [L|L]; [specialize (Q1 L); lra|]. destruct (Req_dec w (PI / 2)) as [->|]; [lra|].
    destruct (Rlt_dec (3 * (PI / 2)) w) as [M|M]; [specialize (Q3 M); lra|]. lra.
  - intros H. destruct (Rlt_dec w (PI / 2)) as [L|L]; [specialize (Q1 L); lra|]. destruct (Req_dec w (PI / 2)) as [->|N1]; [left; split; auto; apply sin_PI2|].
    destruct (Rlt_dec (3 * (PI / 2)) w) as [M|M]; [specialize (Q3 M); lra|]. destruct (Req_dec w (3 * (PI / 2))) as [->|N2]; [right; split; auto; apply sin_3PI2|].
    assert (cos w < 0) by (apply Q2; lra). lra.
Qed.
Lemma ellipse_t_dir : forall a b x, 0 < a -> 0 < b -> exists k, 0 < k /\ a * cos (ellipse_t a b x) = k * cos x /\ b * sin (ellipse_t a b x) = k * sin x.
Proof.
  intros a b x A B. pose proof (rmod_range (Rabs x) tau tau_pos) as W. pose proof (rmod_cos x) as [C S]. set (w := rmod (Rabs x) tau) in *.
  pose proof (quadrant w W) as (Q1 & Q2 & Q3). unfold ellipse_t. fold w. rewrite C in *.
  assert (PIh : tau / 2 = PI) by (unfold tau; lra). rewrite PIh.
  assert (FIX : (if Rle_dec w (3 * (tau / 4)) then (if Rlt_dec (tau / 4) w then atan2_tan a x b + PI else atan2_tan a x b) else atan2_tan a x b)
    = if (if Rle_dec w (3 * (tau / 4)) then (if Rlt_dec (tau / 4) w then true else false) else false) then atan2_tan a x b + PI else atan2_tan a x b).
  { destruct (Rle_dec _ _); [|reflexivity]. destruct (Rlt_dec (tau / 4) w); reflexivity. }
  rewrite FIX. set (q := if Rle_dec w _ then _ else false). clear FIX.
  assert (QT : q = true <-> tau / 4 < w <= 3 * (tau / 4)).
  { unfold q. destruct (Rle_dec w (3 * (tau / 4))); [destruct (Rlt_dec (tau / 4) w)|]; (split; [intros HQ; try discriminate; split; lra|intros [HQ1 HQ2]; try reflexivity; exfalso; lra]). }
  clearbody q. unfold atan2_tan. destruct (Req_EM_T (cos x) 0) as [Z|NZ].
  - destruct (Rlt_dec 0 a) as [_|]; [|lra]. specialize (Q3 Z). rewrite Z. exists b.
    assert (cos (PI/2) = 0) by apply cos_PI2. assert (sin (PI/2) = 1) by apply sin_PI2.
    assert (cos (- (PI/2)) = 0) by (rewrite cos_neg; auto). assert (sin (- (PI/2)) = -1) by (rewrite sin_neg; lra).
    destruct q.
    + assert (QW := proj1 QT eq_refl). destruct Q3 as [[E _]|[E SE]]; [lra|]. rewrite neg_cos, neg_sin. destruct (Rlt_dec x 0); repeat split; nra.
    + assert (QW : ~ (tau / 4 < w <= 3 * (tau / 4))) by (intros K; apply QT in K; discriminate). pose proof tau_pos.
      destruct Q3 as [[E SE]|[E _]]; [|lra]. destruct (Rlt_dec x 0); repeat split; nra.
  - assert (AT : atan2 (a * tan x) b = atan (a * tan x / b)). { unfold atan2. destruct (Rlt_dec 0 b); [auto|lra]. }
    rewrite AT. set (y := a * tan x / b). pose proof (atan_bound y) as BD.
    assert (CP : 0 < cos (atan y)) by (apply cos_gt_0; lra).
    assert (SN : sin (atan y) = y * cos (atan y)).
    { assert (TA := tan_atan y). unfold tan in TA. apply (f_equal (fun z => z * cos (atan y))) in TA. unfold Rdiv in TA. rewrite Rmult_assoc, Rinv_l in TA by lra. lra. }
    assert (YE : b * y = a * (sin x / cos x)) by (unfold y, tan; field; repeat split; auto; lra).
    destruct (Rlt_dec 0 (cos x)) as [P|N].
    + assert (q = false). { destruct q; auto. elim (Q1 P). now apply QT. } subst q.
      exists (a * cos (atan y) / cos x). split; [apply Rdiv_lt_0_compat; auto; now apply Rmult_lt_0_compat|]. split; [field; auto|].
      rewrite SN. replace (b * (y * cos (atan y))) with (b * y * cos (atan y)) by ring. rewrite YE. field. auto.
    + assert (q = true) by (apply QT; apply Q2; lra). subst q. rewrite neg_cos, neg_sin.
      exists (- (a * cos (atan y) / cos x)). split; [|split].
      * assert (0 < a * cos (atan y)) by (apply Rmult_lt_0_compat; auto). unfold Rdiv. rewrite Ropp_mult_distr_r, Ropp_inv_permute by auto.
        apply Rmult_lt_0_compat; auto. apply Rinv_0_lt_compat. lra.
      * field. auto.
      * rewrite SN. replace (b * - (y * cos (atan y))) with (- (b * y * cos (atan y))) by ring. rewrite YE. field. auto.
Qed.

(** * Points of the ellipse *)
Lemma point_at_t_frame : forall A t, point_at_t A t = ellipse_at (a_center A) (arx A) (ary A) (rotation A) t.
Proof. intros. unfold point_at_t, ellipse_at, frame. f_equal; ring. Qed.
Lemma ray_unique : forall a b k r c s, 0 < a -> 0 < b -> 0 < k -> 0 < r -> (k * c / a) ^ 2 + (k * s / b) ^ 2 = 1 -> (r * c / a) ^ 2 + (r * s / b) ^ 2 = 1 -> k = r.
Proof.
  intros a b k r c s A B K R0 H1 H2. set (g := (c / a) ^ 2 + (s / b) ^ 2).
  assert (E1 : k * k * g = 1) by (rewrite <- H1; unfold g; field; lra). assert (E2 : r * r * g = 1) by (rewrite <- H2; unfold g; field; lra).
  assert (G : g <> 0) by nra. assert (k * k = r * r) by (apply (Rmult_eq_reg_r g); lra). nra.
Qed.
(** The direction of a point of the ellipse leads back to it. *)
Lemma own_dir : forall A s, 0 < arx A -> 0 < ary A -> let x := angle_at_point A (point_at_t A s) - rotation A in
  exists r, 0 < r /\ arx A * cos s = r * cos x /\ ary A * sin s = r * sin x.
Proof.
  intros A s RX RY. cbv zeta. rewrite point_at_t_frame. unfold angle_at_point. set (rot := rotation A). set (a := arx A) in *. set (b := ary A) in *. set (c := a_center A).
  set (p := ellipse_at c a b rot s). pose proof (polar_angle_lemma c p) as [PL AE]. rewrite AE. set (th := angle c p) in *.
  set (r := distance c p) in *.
  assert (X : a * cos s = r * cos (th - rot) /\ b * sin s = r * sin (th - rot)).
  { assert (PX := f_equal px PL). assert (PY := f_equal py PL). unfold polar in PX, PY. cbn [px py] in PX, PY.
    unfold p, ellipse_at, frame in PX, PY. cbn [px py] in PX, PY. rewrite cos_minus, sin_minus. pose proof (cs1 rot).
    assert (QX : cos th * r = cos rot * (a * cos s) - sin rot * (b * sin s)) by lra.
    assert (QY : sin th * r = sin rot * (a * cos s) + cos rot * (b * sin s)) by lra.
    split.
    - transitivity ((cos th * r) * cos rot + (sin th * r) * sin rot); [rewrite QX, QY|ring]. transitivity ((cos rot * cos rot + sin rot * sin rot) * (a * cos s)); [rewrite H|]; ring.
    - transitivity ((sin th * r) * cos rot - (cos th * r) * sin rot); [rewrite QX, QY|ring]. transitivity ((cos rot * cos rot + sin rot * sin rot) * (b * sin s)); [rewrite H|]; ring. }
  destruct X as [X1 X2]. exists r. split; [|auto].
  assert (0 <= r) by apply sqrt_pos. destruct (Rle_lt_or_eq_dec _ _ H) as [|Z]; auto. exfalso. rewrite <- Z in X1, X2. pose proof (cs1 s).
  assert (cos s = 0) by (apply (Rmult_eq_reg_l a); lra). assert (sin s = 0) by (apply (Rmult_eq_reg_l b); lra). nra.
Qed.
Lemma t_at_own_point : forall A s, 0 < arx A -> 0 < ary A ->
  let t := t_at_point A (point_at_t A s) in cos t = cos s /\ sin t = sin s.
Proof.
  intros A s RX RY. cbv zeta. unfold t_at_point. pose proof (own_dir A s RX RY) as (r & R0 & X1 & X2). set (x := angle_at_point A (point_at_t A s) - rotation A) in *.
  pose proof (ellipse_t_dir (arx A) (ary A) x RX RY) as (k & K & E1 & E2). set (t := ellipse_t (arx A) (ary A) x) in *.
  set (a := arx A) in *. set (b := ary A) in *.
  assert (k = r).
  { apply (ray_unique a b k r (cos x) (sin x)); auto.
    - rewrite <- E1, <- E2. pose proof (cs1 t). field_simplify; [|lra]. rewrite <- H. ring.
    - rewrite <- X1, <- X2. pose proof (cs1 s). field_simplify; [|lra]. rewrite <- H. ring. }
  subst k. split; [apply (Rmult_eq_reg_l a); lra|apply (Rmult_eq_reg_l b); lra].
Qed.
Lemma point_at_t_cs : forall A s t, cos s = cos t -> sin s = sin t -> point_at_t A s = point_at_t A t.
Proof. intros A s t C S. unfold point_at_t. now rewrite C, S. Qed.
Lemma point_at_own_angle : forall A s, 0 < arx A -> 0 < ary A -> point_at_angle A (angle_at_point A (point_at_t A s)) = point_at_t A s.
Proof.
  intros A s RX RY. unfold point_at_angle. destruct (Req_EM_T (arx A) (ary A)) as [E|N].
  - pose proof (own_dir A s RX RY) as (r & R0 & X1 & X2). set (x := angle_at_point A (point_at_t A s) - rotation A) in *. rewrite <- E in *. set (a := arx A) in *.
    assert (a = r). { pose proof (cs1 s). pose proof (cs1 x). assert (a * a = r * r); [|nra]. transitivity (a * a * (cos s * cos s + sin s * sin s)); [rewrite H; ring|].
      transitivity (r * r * (cos x * cos x + sin x * sin x)); [|rewrite H0; ring].
      transitivity ((a * cos s) * (a * cos s) + (a * sin s) * (a * sin s)); [ring|]. rewrite X1, X2. ring. }
    apply point_at_t_cs; apply (Rmult_eq_reg_l a); rewrite ?X1, ?X2; try lra; congruence.
  - destruct (t_at_own_point A s RX RY) as [C S]. now apply point_at_t_cs.
Qed.
(** get_start_t and get_end_t are right for points of the ellipse. *)
Lemma start_t_own : forall A s, 0 < arx A -> 0 < ary A -> a_start A = point_at_t A s -> cos (start_t A) = cos s /\ sin (start_t A) = sin s.
Proof. intros A s RX RY E. unfold start_t. rewrite E, (point_at_own_angle A s) by auto. now apply t_at_own_point. Qed.
Lemma end_t_own : forall A s, 0 < arx A -> 0 < ary A -> a_end A = point_at_t A s -> cos (end_t A) = cos s /\ sin (end_t A) = sin s.
Proof. intros A s RX RY E. unfold end_t. rewrite E, (point_at_own_angle A s) by auto. now apply t_at_own_point. Qed.

(** * The SVG parameters *)
Lemma acos_pair : forall c s, c * c + s * s = 1 -> cos (acos c) = c /\ (0 <= s -> sin (acos c) = s) /\ (s < 0 -> sin (acos c) = - s) /\ 0 <= acos c <= PI.
Proof.
  intros c s H. assert (B : -1 <= c <= 1) by (pose proof (sq_pos s); split; nra). split; [apply cos_acos; auto|].
  assert (S : sin (acos c) = sqrt (s * s)). { rewrite sin_acos by auto. f_equal. unfold Rsqr. lra. }
  split; [|split].
  - intros P. rewrite S. now apply sqrt_square.
  - intros N. rewrite S. replace (s * s) with ((- s) * (- s)) by ring. apply sqrt_square. lra.
  - apply acos_bound.
Qed.
Lemma pt_eqb_true : forall p q, pt_eqb p q = true <-> p_eq p q.
Proof. intros p q. unfold pt_eqb, p_eq. destruct (Rle_dec _ _); [destruct (Rle_dec _ _)|]; split; intros; try tauto; discriminate. Qed.
Lemma pt_eqb_refl : forall p, pt_eqb p p = true.
Proof. intros p. apply pt_eqb_true. unfold p_eq. rewrite !Rminus_eq_0, Rabs_R0. assert (0 < / 10 ^ 12) by (apply Rinv_0_lt_compat; lra). split; lra. Qed.
Lemma dist_polar : forall c a r, 0 < r -> distance c (polar c a r) = r.
Proof. intros. rewrite polar_distance. apply Rabs_right. lra. Qed.
Lemma angle_polar : forall c a r, 0 < r -> cos (angle c (polar c a r)) = cos a /\ sin (angle c (polar c a r)) = sin a.
Proof.
  intros c a r R0. pose proof (polar_angle_lemma c (polar c a r)) as [PL _]. rewrite dist_polar in PL by auto. set (b := angle c (polar c a r)) in *.
  assert (X := f_equal px PL). assert (Y := f_equal py PL). unfold polar in X, Y. cbn [px py] in X, Y.
  split; apply (Rmult_eq_reg_r r); lra.
Qed.
Lemma rotate_about : forall c a v, apply_mx (post_rotate ident a (Some (px c)) (Some (py c))) (P (px c + px v) (py c + py v)) =
  P (px c + cos a * px v - sin a * py v) (py c + sin a * px v + cos a * py v).
Proof.
  intros [x y] a [u v]. unfold post_rotate. cbn [c0 px py]. destruct (at0 x y) as [[-> ->]|_];
    unfold post_translate, post_cat, m_rotate, ident, mul, apply_mx, m_translate; cbn [ma mb mc md me mf px py]; f_equal; ring.
Qed.
Lemma unit_angle : forall x y, x * x + y * y = 1 -> exists t, cos t = x /\ sin t = y.
Proof.
  intros x y H. exists (atan2 y x). pose proof (atan2_polar x y) as [A B]. unfold hypot in A, B. rewrite H, sqrt_1 in A, B. lra.
Qed.
Lemma degrees_math : forall x, degrees (math_degrees x) = x.
Proof. intros x. unfold degrees, math_degrees, tau. field. apply PI_neq0. Qed.
Lemma degrees_rot : forall x, degrees x = math_radians x.
Proof. intros x. unfold degrees, math_radians, tau. field. Qed.

Section SVG.
  Variables (start e : pt) (rx ry rot : R) (large swp : bool).
  Hypotheses (RX0 : 0 < rx) (RY0 : 0 < ry) (NE : start <> e).
  Let r := math_radians rot.
  Let x1 := x1prim start e (cos r) (sin r).
  Let y1 := y1prim start e (cos r) (sin r).
  Let check := radius_check start e (cos r) (sin r) rx ry.
  Definition svg_k : R := if Rlt_dec 1 check then sqrt check else 1.
  Let k := svg_k.
  Let RX := rx * k.
  Let RY := ry * k.
  Let c := svg_c start e (cos r) (sin r) RX RY large swp.
  Let cx := c * RX * y1 / RY.
  Let cy := - c * RY * x1 / RX.
  Let center := P (cos r * cx - sin r * cy + (px start + px e) / 2) (sin r * cx + cos r * cy + (py start + py e) / 2).
  Let ux := (x1 - cx) / RX.
  Let uy := (y1 - cy) / RY.
  Let vx := (- x1 - cx) / RX.
  Let vy := (- y1 - cy) / RY.

  Lemma k_ge1 : 1 <= k.
  Proof.
    unfold k, svg_k. destruct (Rlt_dec 1 check) as [L|]; [|lra]. rewrite <- sqrt_1. apply sqrt_le_1; lra.
  Qed.
  Lemma RXp : 0 < RX. Proof. pose proof k_ge1. unfold RX. apply Rmult_lt_0_compat; lra. Qed.
  Lemma RYp : 0 < RY. Proof. pose proof k_ge1. unfold RY. apply Rmult_lt_0_compat; lra. Qed.
  Lemma back_x : cos r * x1 - sin r * y1 = (px start - px e) / 2.
  Proof. unfold x1, y1, x1prim, y1prim. pose proof (cs1 r). transitivity ((cos r * cos r + sin r * sin r) * ((px start - px e) / 2)); [ring|rewrite H; ring]. Qed.
  Lemma back_y : sin r * x1 + cos r * y1 = (py start - py e) / 2.
  Proof. unfold x1, y1, x1prim, y1prim. pose proof (cs1 r). transitivity ((cos r * cos r + sin r * sin r) * ((py start - py e) / 2)); [ring|rewrite H; ring]. Qed.
  Lemma xy_pos : 0 < x1 * x1 + y1 * y1.
  Proof.
    pose proof (sq_pos x1). pose proof (sq_pos y1). destruct (Req_dec (x1 * x1 + y1 * y1) 0) as [Z|]; [|lra]. exfalso.
    assert (x1 = 0) by nra. assert (y1 = 0) by nra. pose proof back_x. pose proof back_y. rewrite H1, H2 in *. apply NE. apply pt_ext; lra.
  Qed.
  Let t12 := RX * RX * (y1 * y1) + RY * RY * (x1 * x1).
  Lemma t12_pos : 0 < t12.
  Proof.
    unfold t12. pose proof RXp. pose proof RYp. pose proof xy_pos. pose proof (sq_pos x1). pose proof (sq_pos y1).
    assert (0 < RX * RX) by nra. assert (0 < RY * RY) by nra. destruct (Req_dec (x1 * x1) 0) as [Z|N]; nra.
  Qed.
  Lemma check_eq : check * (rx * rx * (ry * ry)) = rx * rx * (y1 * y1) + ry * ry * (x1 * x1).
  Proof. unfold check, radius_check. fold x1 y1. field. lra. Qed.
  Lemma t12_le : t12 <= RX * RX * (RY * RY).
  Proof.
    unfold t12, RX, RY. replace (rx * k * (rx * k) * (y1 * y1) + ry * k * (ry * k) * (x1 * x1)) with (k * k * (rx * rx * (y1 * y1) + ry * ry * (x1 * x1))) by ring.
    rewrite <- check_eq. replace (rx * k * (rx * k) * (ry * k * (ry * k))) with (k * k * (k * k * (rx * rx * (ry * ry)))) by ring.
    apply Rmult_le_compat_l; [apply sq_pos|]. apply Rmult_le_compat_r; [apply Rmult_le_pos; apply sq_pos|].
    unfold k, svg_k. destruct (Rlt_dec 1 check); [rewrite sqrt_sqrt|]; lra.
  Qed.
  Lemma c_sq : c * c * t12 = RX * RX * (RY * RY) - t12.
  Proof.
    pose proof t12_pos. pose proof t12_le. unfold c, svg_c. fold x1 y1. cbv zeta.
    replace (RX * RX * (RY * RY) - RX * RX * (y1 * y1) - RY * RY * (x1 * x1)) with (RX * RX * (RY * RY) - t12) by (unfold t12; ring). fold t12.
    set (q := (RX * RX * (RY * RY) - t12) / t12). assert (Q : 0 <= q). { unfold q. apply Rmult_le_pos; [lra|]. left. apply Rinv_0_lt_compat. auto. }
    rewrite (Rabs_right q) by lra. assert (SQ : sqrt q * sqrt q = q) by (apply sqrt_sqrt; auto).
    replace ((if eqb large swp then - sqrt q else sqrt q) * (if eqb large swp then - sqrt q else sqrt q)) with q by (destruct (eqb large swp); lra).
    unfold q. field. lra.
  Qed.
  Lemma c_sign : (if eqb large swp then c <= 0 else 0 <= c).
  Proof. unfold c, svg_c. cbv zeta. destruct (eqb large swp); [|apply sqrt_pos]. pose proof (sqrt_pos (Rabs ((RX * RX * (RY * RY) - RX * RX * (y1prim start e (cos r) (sin r) * y1prim start e (cos r) (sin r)) - RY * RY * (x1prim start e (cos r) (sin r) * x1prim start e (cos r) (sin r))) / (RX * RX * (y1prim start e (cos r) (sin r) * y1prim start e (cos r) (sin r)) + RY * RY * (x1prim start e (cos r) (sin r) * x1prim start e (cos r) (sin r)))))). lra. Qed.
  Lemma uv_unit : ux * ux + uy * uy = 1 /\ vx * vx + vy * vy = 1.
  Proof.
    pose proof RXp. pose proof RYp. pose proof t12_pos. pose proof c_sq as C.
    assert (G : (1 + c * c) * t12 = RX * RX * (RY * RY)) by lra.
    split.
    - transitivity ((1 + c * c) * t12 / (RX * RX * (RY * RY))); [unfold ux, uy, cx, cy, t12; field; lra|rewrite G; field; lra].
    - transitivity ((1 + c * c) * t12 / (RX * RX * (RY * RY))); [unfold vx, vy, cx, cy, t12; field; lra|rewrite G; field; lra].
  Qed.
  Lemma cross_uv : (ux * vy - uy * vx) * (RX * RX * (RY * RY)) = 2 * c * t12.
  Proof. pose proof RXp. pose proof RYp. unfold ux, uy, vx, vy, cx, cy, t12. field. lra. Qed.
  Lemma dot_lt : ux * vx + uy * vy < 1.
  Proof.
    pose proof RXp. pose proof RYp. destruct uv_unit as [U V]. pose proof xy_pos.
    assert (D : (ux - vx) * (ux - vx) + (uy - vy) * (uy - vy) = 4 * (t12 / (RX * RX * (RY * RY)))) by (unfold ux, uy, vx, vy, t12; field; lra).
    assert (0 < t12 / (RX * RX * (RY * RY))). { apply Rdiv_lt_0_compat; [apply t12_pos|]. apply Rmult_lt_0_compat; nra. }
    nra.
  Qed.
  Lemma lagrange : (ux * vx + uy * vy) * (ux * vx + uy * vy) + (ux * vy - uy * vx) * (ux * vy - uy * vx) = 1.
  Proof. destruct uv_unit as [U V]. transitivity ((ux * ux + uy * uy) * (vx * vx + vy * vy)); [ring|rewrite U, V; ring]. Qed.
  Lemma frame_start : frame center r (RX * ux) (RY * uy) = start.
  Proof.
    pose proof RXp. pose proof RYp. pose proof back_x. pose proof back_y. unfold frame, ux, uy, center. cbn [px py].
    replace (RX * ((x1 - cx) / RX)) with (x1 - cx) by (field; lra). replace (RY * ((y1 - cy) / RY)) with (y1 - cy) by (field; lra).
    apply pt_ext; cbn [px py]; lra.
  Qed.
  Lemma frame_end : frame center r (RX * vx) (RY * vy) = e.
  Proof.
    pose proof RXp. pose proof RYp. pose proof back_x. pose proof back_y. unfold frame, vx, vy, center. cbn [px py].
    replace (RX * ((- x1 - cx) / RX)) with (- x1 - cx) by (field; lra). replace (RY * ((- y1 - cy) / RY)) with (- y1 - cy) by (field; lra).
    apply pt_ext; cbn [px py]; lra.
  Qed.

  (** The sweep as an angle between [u] and [v]. *)
  Let dot := ux * vx + uy * vy.
  Let crs := ux * vy - uy * vx.
  Let D := if Rlt_dec crs 0 then - acos dot else acos dot.
  Let swept := if swp then rmod (math_degrees D) 360 else rmod (math_degrees D) 360 - 360.
  Lemma neg_if : (if Rlt_dec crs 0 then - math_degrees (acos dot) else math_degrees (acos dot)) = math_degrees D.
  Proof. unfold D. destruct (Rlt_dec crs 0); auto. unfold math_degrees. field. apply PI_neq0. Qed.
  Lemma D_trig : cos D = dot /\ sin D = crs /\ - PI <= D <= PI.
  Proof.
    pose proof lagrange as L. fold dot crs in L. destruct (acos_pair dot crs L) as (C & S1 & S2 & B). unfold D. destruct (Rlt_dec crs 0) as [N|N].
    - rewrite cos_neg, sin_neg, C, S2 by auto. repeat split; lra.
    - rewrite C, S1 by lra. repeat split; lra.
  Qed.
  Lemma swept_turns : exists n, degrees swept = D + tau * IZR n.
  Proof.
    unfold swept. set (w := math_degrees D). exists (if swp then (- Int_part (w / 360))%Z else (- Int_part (w / 360) - 1)%Z).
    transitivity (degrees (w + 360 * IZR (if swp then (- Int_part (w / 360))%Z else (- Int_part (w / 360) - 1)%Z))).
    - f_equal. unfold rmod. destruct swp; [rewrite opp_IZR|rewrite minus_IZR, opp_IZR]; ring.
    - transitivity (degrees w + tau * IZR (if swp then (- Int_part (w / 360))%Z else (- Int_part (w / 360) - 1)%Z)); [unfold degrees; field|]. unfold w. now rewrite degrees_math.
  Qed.
  Lemma swept_trig : cos (degrees swept) = dot /\ sin (degrees swept) = crs.
  Proof. destruct swept_turns as [n ->]. destruct (turn_period D n) as [A B]. rewrite A, B. destruct D_trig as (C & S & _). auto. Qed.
  Lemma swept_range : if swp then 0 < degrees swept < 2 * PI else - (2 * PI) < degrees swept < 0.
  Proof.
    pose proof swept_trig as [C _]. pose proof dot_lt as DL. fold dot in DL. pose proof PI_RGT_0.
    assert (R0 := rmod_range (math_degrees D) 360 ltac:(lra)). unfold swept in *. set (w := rmod (math_degrees D) 360) in *.
    assert (W : w <> 0).
    { intros Z. rewrite Z in C. assert (cos (degrees (if swp then 0 else 0 - 360)) = 1).
      { destruct swp; unfold degrees, tau; [replace (2 * PI * 0 / 360) with 0 by field; apply cos_0|]. replace (2 * PI * (0 - 360) / 360) with (- (2 * PI)) by field. rewrite cos_neg. apply cos_2PI. }
      rewrite H0 in C. lra. }
    destruct swp; unfold degrees, tau.
    - replace (2 * PI * w / 360) with (2 * PI * (w / 360)) by field. assert (0 < w / 360 < 1) by lra. split; nra.
    - replace (2 * PI * (w - 360) / 360) with (2 * PI * (w / 360) - 2 * PI) by field. assert (0 < w / 360 < 1) by lra. split; nra.
  Qed.
  Lemma large_sweep : (large = true -> PI <= Rabs (degrees swept)) /\ (large = false -> Rabs (degrees swept) <= PI).
  Proof.
    pose proof swept_range as SR. pose proof swept_trig as [_ S]. pose proof c_sign as CS. pose proof cross_uv as CU. fold crs in CU.
    pose proof RXp. pose proof RYp. pose proof t12_pos. assert (G : 0 < RX * RX * (RY * RY)) by (apply Rmult_lt_0_compat; nra).
    assert (SG : (c <= 0 -> crs <= 0) /\ (0 <= c -> 0 <= crs)). { split; intros; nra. }
    set (z := degrees swept) in *. clearbody z. pose proof PI_RGT_0.
    assert (P1 : 0 < z < 2 * PI -> (crs <= 0 -> PI <= z) /\ (0 <= crs -> z <= PI)).
    { intros Z. split; intros.
      - destruct (Rle_lt_dec PI z); auto. assert (0 < sin z) by (apply sin_gt_0; lra). lra.
      - destruct (Rle_lt_dec z PI); auto. assert (sin z < 0) by (apply sin_lt_0; lra). lra. }
    assert (P2 : - (2 * PI) < z < 0 -> (0 <= crs -> z <= - PI) /\ (crs <= 0 -> - PI <= z)).
    { intros Z. assert (SN : sin (- z) = - crs) by (rewrite sin_neg, S; auto). split; intros.
      - destruct (Rle_lt_dec z (- PI)); auto. assert (0 < sin (- z)) by (apply sin_gt_0; lra). lra.
      - destruct (Rle_lt_dec (- PI) z); auto. assert (sin (- z) < 0) by (apply sin_lt_0; lra). lra. }
    destruct swp.
    - destruct (P1 SR) as [A B]. rewrite Rabs_right by lra. split; intros ->; cbn in CS; [apply A|apply B]; tauto.
    - destruct (P2 SR) as [A B]. rewrite Rabs_left by lra. split; intros ->; cbn in CS; [|].
      + assert (z <= - PI) by (apply A; tauto). lra.
      + assert (- PI <= z) by (apply B; tauto). lra.
  Qed.
  Lemma svg_eq : pt_eqb start e = false -> svg_parameterize start rx ry rot large swp e =
    mkArc start e center (polar center r RX) (polar center (r + PI / 2) RY) (degrees swept).
  Proof.
    intros PE. unfold svg_parameterize. rewrite PE. destruct (Req_EM_T rx 0); [lra|]. destruct (Req_EM_T ry 0); [lra|]. cbv zeta. fold r x1 y1 check.
    change (if Rlt_dec 1 check then sqrt check else 1) with k. fold RX RY. fold c. fold cx cy. fold center. fold ux uy vx vy.
    destruct uv_unit as [U V]. rewrite U, V. replace (sqrt (1 * 1)) with 1 by (rewrite Rmult_1_l, sqrt_1; auto). fold dot. replace (dot / 1) with dot by field.
    pose proof lagrange as L. fold dot crs in L. pose proof (sq_pos crs). destruct (Rlt_dec 1 dot); [nra|]. destruct (Rlt_dec dot (-1)); [nra|]. fold crs. rewrite neg_if. fold swept.
    f_equal.
    - pose proof (rotate_about center (as_radians (degrees rot)) (P RX 0)) as RA. cbn [px py] in RA. rewrite Rplus_0_r in RA. unfold as_radians in *. rewrite degrees_rot in *. fold r in RA |- *. rewrite RA.
      unfold polar. f_equal; ring.
    - pose proof (rotate_about center (as_radians (degrees rot)) (P 0 RY)) as RA. cbn [px py] in RA. rewrite Rplus_0_r in RA. unfold as_radians in *. rewrite degrees_rot in *. fold r in RA |- *. rewrite RA.
      unfold polar. rewrite cos_plus, sin_plus, cos_PI2, sin_PI2. f_equal; ring.
  Qed.
End SVG.

(** * Proper arcs: start and end lie on the ellipse, the sweep apart. *)
Lemma start_t_proper : forall A t0, proper_at A t0 -> cos (start_t A) = cos t0 /\ sin (start_t A) = sin t0.
Proof. intros A t0 (X & Y & S & _). apply start_t_own; auto. now rewrite point_at_t_frame. Qed.
Lemma ellipse_at_cs : forall c rx ry rot s t, cos s = cos t -> sin s = sin t -> ellipse_at c rx ry rot s = ellipse_at c rx ry rot t.
Proof. intros c rx ry rot s t C S. unfold ellipse_at. now rewrite C, S. Qed.
Lemma cs_add : forall s t x, cos s = cos t -> sin s = sin t -> cos (s + x) = cos (t + x) /\ sin (s + x) = sin (t + x).
Proof. intros s t x C S. rewrite !cos_plus, !sin_plus, C, S. auto. Qed.
Lemma arc_runs_own : forall A t0, proper_at A t0 -> runs (arc_point A) (a_center A) (arx A) (ary A) (rotation A) t0 (a_sweep A).
Proof.
  intros A t0 PA t. pose proof (start_t_proper A t0 PA) as [C S]. destruct PA as (X & Y & ST & EN).
  assert (G : forall x, point_at_t A (start_t A + a_sweep A * x) = ellipse_at (a_center A) (arx A) (ary A) (rotation A) (t0 + x * a_sweep A)).
  { intros x. rewrite point_at_t_frame. destruct (cs_add _ _ (x * a_sweep A) C S) as [C' S']. replace (a_sweep A * x) with (x * a_sweep A) by ring. now apply ellipse_at_cs. }
  assert (H : (if Req_EM_T t 0 then a_start A else if Req_EM_T t 1 then a_end A else point_at_t A (start_t A + a_sweep A * t)) =
    ellipse_at (a_center A) (arx A) (ary A) (rotation A) (t0 + t * a_sweep A)).
  { destruct (Req_EM_T t 0) as [->|]; [rewrite ST; f_equal; ring|]. destruct (Req_EM_T t 1) as [->|]; [rewrite EN; f_equal; ring|]. apply G. }
  unfold arc_point. destruct (pt_eqb _ _); [|apply H]. destruct (Req_EM_T (a_sweep A) 0) as [Z|]; [|apply H].
  rewrite ST, Z. f_equal. ring.
Qed.
Lemma runs_turn : forall f c rx ry rot rot' t0 sw, cos rot = cos rot' -> sin rot = sin rot' -> runs f c rx ry rot t0 sw -> runs f c rx ry rot' t0 sw.
Proof. intros f c rx ry rot rot' t0 sw C S H t. rewrite (H t). unfold ellipse_at, frame. now rewrite C, S. Qed.

Lemma rotate_unit : forall t0 z ux uy vx vy, cos t0 = ux -> sin t0 = uy -> cos z = ux * vx + uy * vy -> sin z = ux * vy - uy * vx ->
  cos (t0 + z) = vx /\ sin (t0 + z) = vy.
Proof.
  intros t0 z ux uy vx vy <- <- C S. pose proof (cs1 t0) as U. rewrite cos_plus, sin_plus, C, S. split.
  - transitivity ((cos t0 * cos t0 + sin t0 * sin t0) * vx); [ring|rewrite U; ring].
  - transitivity ((cos t0 * cos t0 + sin t0 * sin t0) * vy); [ring|rewrite U; ring].
Qed.
Lemma fits_check : forall s e rx ry rot, 0 < rx -> 0 < ry -> fits s e rx ry (math_radians rot) ->
  radius_check s e (cos (math_radians rot)) (sin (math_radians rot)) rx ry <= 1.
Proof.
  intros s e rx ry rot X Y (c & (x & y & -> & E1) & (x' & y' & -> & E2)). set (r := math_radians rot). unfold radius_check, x1prim, y1prim, frame. cbn [px py]. pose proof (cs1 r) as CS.
  match goal with |- ?a * _ / _ + ?b * _ / _ <= 1 => replace a with ((x - x') / 2) by (transitivity ((cos r * cos r + sin r * sin r) * ((x - x') / 2)); [rewrite CS; ring|fold r; field]);
    replace b with ((y - y') / 2) by (transitivity ((cos r * cos r + sin r * sin r) * ((y - y') / 2)); [rewrite CS; ring|fold r; field]) end.
  replace ((x - x') / 2 * ((x - x') / 2) / (rx * rx) + (y - y') / 2 * ((y - y') / 2) / (ry * ry)) with
    (((x / rx - x' / rx) ^ 2 + (y / ry - y' / ry) ^ 2) / 4) by (field; lra).
  set (a := x / rx) in *. set (b := x' / rx) in *. set (g := y / ry) in *. set (h := y' / ry) in *. pose proof (sq_pos (a + b)). pose proof (sq_pos (g + h)). lra.
Qed.
Lemma check_scale : forall s e cr sr rx ry j, rx <> 0 -> ry <> 0 -> j <> 0 -> radius_check s e cr sr (j * rx) (j * ry) = radius_check s e cr sr rx ry / (j * j).
Proof. intros. unfold radius_check. field. auto. Qed.

Lemma svg_main : forall s e rx ry rot large swp, 0 < rx -> 0 < ry -> ~ p_eq s e ->
  let A := svg_parameterize s rx ry rot large swp e in
  a_start A = s /\ a_end A = e /\
  (exists k, 1 <= k /\ arx A = k * rx /\ ary A = k * ry /\ (forall j, 1 <= j < k -> ~ fits s e (j * rx) (j * ry) (math_radians rot))) /\
  cos (rotation A) = cos (math_radians rot) /\ sin (rotation A) = sin (math_radians rot) /\
  a_pry A = polar (a_center A) (rotation A + PI / 2) (ary A) /\
  (exists t0, proper_at A t0) /\
  (if swp then 0 < a_sweep A < 2 * PI else - (2 * PI) < a_sweep A < 0) /\
  (large = true -> PI <= Rabs (a_sweep A)) /\ (large = false -> Rabs (a_sweep A) <= PI).
Proof.
  intros s e rx ry rot large swp X Y NP. assert (NE : s <> e) by (intros ->; apply NP, pt_eqb_true, pt_eqb_refl).
  assert (PE : pt_eqb s e = false). { destruct (pt_eqb s e) eqn:Q; auto. apply pt_eqb_true in Q. contradiction. }
  cbv zeta. rewrite (svg_eq s e rx ry rot large swp X Y NE PE).
  pose proof (swept_trig s e rx ry rot large swp X Y NE) as [SC SS]. pose proof (swept_range s e rx ry rot large swp X Y NE) as SR. pose proof (large_sweep s e rx ry rot large swp X Y NE) as LS.
  pose proof (uv_unit s e rx ry rot large swp X Y NE) as [UU _]. pose proof (frame_start s e rx ry rot large swp X Y) as FS. pose proof (frame_end s e rx ry rot large swp X Y) as FE.
  pose proof (RXp s e rx ry rot X) as RP. pose proof (RYp s e rx ry rot Y) as RQ. pose proof (k_ge1 s e rx ry rot) as K1.
  set (r := math_radians rot) in *. set (k := svg_k s e rx ry rot) in *.
  match type of UU with (?a / _) * _ + (?b / _) * _ = 1 => set (ux := a / (rx * k)) in *; set (uy := b / (ry * k)) in * end.
  match type of FE with frame ?c _ (_ * ?a) (_ * ?b) = _ => set (vx := a) in *; set (vy := b) in *; set (ctr := c) in * end.
  match type of SR with if _ then 0 < ?z < _ else _ => set (sw := z) in * end.
  set (A := mkArc s e ctr (polar ctr r (rx * k)) (polar ctr (r + PI / 2) (ry * k)) sw).
  assert (AX : arx A = rx * k) by (unfold arx; cbn; now apply dist_polar). assert (AY : ary A = ry * k) by (unfold ary; cbn; now apply dist_polar).
  destruct (angle_polar ctr r (rx * k) RP) as [RC RS]. change (angle ctr (polar ctr r (rx * k))) with (rotation A) in RC, RS.
  split; [reflexivity|]. split; [reflexivity|]. split.
  { exists k. split; auto. split; [lra|]. split; [lra|]. intros j J F. revert J. unfold k, svg_k. fold r. destruct (Rlt_dec 1 (radius_check s e (cos r) (sin r) rx ry)) as [L|L]; intros J; [|lra].
    apply fits_check in F; try (apply Rmult_lt_0_compat; lra). fold r in F. rewrite check_scale in F by lra. set (ch := radius_check s e (cos r) (sin r) rx ry) in *.
    assert (SQ : sqrt ch * sqrt ch = ch) by (apply sqrt_sqrt; lra). assert (ch <= j * j). { apply (Rmult_le_reg_r (/ (j * j))); [apply Rinv_0_lt_compat; nra|]. rewrite Rinv_r by nra. exact F. } nra. }
  split; auto. split; auto. split.
  { cbn [a_pry a_center A]. rewrite AY. unfold polar. rewrite !cos_plus, !sin_plus, RC, RS. reflexivity. }
  split.
  { destruct (unit_angle ux uy UU) as (t0 & T1 & T2). exists t0. unfold proper_at. rewrite AX, AY. split; auto. split; auto.
    destruct (rotate_unit t0 sw ux uy vx vy T1 T2 SC SS) as [E1 E2]. unfold ellipse_at, frame. cbn [a_center a_start a_end a_sweep A].
    rewrite RC, RS, T1, T2, E1, E2. split; [rewrite <- FS at 1|rewrite <- FE at 1]; reflexivity. }
  split; [exact SR|exact LS].
Qed.

(** * Uniqueness of the arc with given radii, rotation and flags *)
Lemma cos_same : forall x y, 0 < x < 2 * PI -> 0 < y < 2 * PI -> (x <= PI /\ y <= PI) \/ (PI <= x /\ PI <= y) -> cos x = cos y -> x = y.
Proof.
  intros x y X Y [[A B]|[A B]] E.
  - apply cos_inj; lra.
  - assert (2 * PI - x = 2 * PI - y); [|lra]. apply cos_inj; [lra|lra|]. assert (G : forall z, cos (2 * PI - z) = cos z). { intros z. rewrite cos_minus, cos_2PI, sin_2PI. ring. } now rewrite !G.
Qed.
Lemma frame_diff : forall c c' r x y x' y' a b a' b', frame c r x y = frame c' r x' y' -> frame c r a b = frame c' r a' b' -> x - a = x' - a' /\ y - b = y' - b'.
Proof.
  intros [cx cy] [dx dy] r x y x' y' a b a' b' E1 E2. unfold frame in *. cbn [px py] in *. injection E1 as X1 Y1. injection E2 as X2 Y2. pose proof (cs1 r) as CS.
  assert (U : cos r * (x - a) - sin r * (y - b) = cos r * (x' - a') - sin r * (y' - b')) by lra.
  assert (V : sin r * (x - a) + cos r * (y - b) = sin r * (x' - a') + cos r * (y' - b')) by lra.
  split.
  - transitivity ((cos r * cos r + sin r * sin r) * (x - a)); [rewrite CS; ring|]. transitivity ((cos r * cos r + sin r * sin r) * (x' - a')); [|rewrite CS; ring].
    transitivity (cos r * (cos r * (x - a) - sin r * (y - b)) + sin r * (sin r * (x - a) + cos r * (y - b))); [ring|]. rewrite U, V. ring.
  - transitivity ((cos r * cos r + sin r * sin r) * (y - b)); [rewrite CS; ring|]. transitivity ((cos r * cos r + sin r * sin r) * (y' - b')); [|rewrite CS; ring].
    transitivity (cos r * (sin r * (x - a) + cos r * (y - b)) - sin r * (cos r * (x - a) - sin r * (y - b))); [ring|]. rewrite U, V. ring.
Qed.
Lemma chord_cos : forall t z, (cos t - cos (t + z)) * (cos t - cos (t + z)) + (sin t - sin (t + z)) * (sin t - sin (t + z)) = 2 - 2 * cos z.
Proof. intros t z. pose proof (cs1 t). pose proof (cs1 (t + z)). assert (cos t * cos (t + z) + sin t * sin (t + z) = cos z). { replace z with ((t + z) - t) at 3 by ring. rewrite cos_minus. ring. } lra. Qed.
Lemma cos_lt1 : forall z, 0 < z < 2 * PI -> cos z < 1.
Proof.
  intros z Z. destruct (Rle_lt_dec z PI).
  - rewrite <- cos_0. apply cos_decreasing_1; lra.
  - rewrite <- cos_2PI. apply cos_increasing_1; lra.
Qed.
Lemma arc_unique : forall s e a b r c c' t t' sw sw', 0 < a -> 0 < b ->
  s = ellipse_at c a b r t -> e = ellipse_at c a b r (t + sw) -> s = ellipse_at c' a b r t' -> e = ellipse_at c' a b r (t' + sw') ->
  (0 < sw < 2 * PI /\ 0 < sw' < 2 * PI) \/ (- (2 * PI) < sw < 0 /\ - (2 * PI) < sw' < 0) ->
  (Rabs sw <= PI /\ Rabs sw' <= PI) \/ (PI <= Rabs sw /\ PI <= Rabs sw') ->
  c = c' /\ sw = sw' /\ cos t = cos t' /\ sin t = sin t'.
Proof.
  intros s e a b r c c' t t' sw sw' A B S1 E1 S2 E2 SG LG. rewrite S1 in S2. rewrite E1 in E2. unfold ellipse_at in S2, E2.
  destruct (frame_diff _ _ _ _ _ _ _ _ _ _ _ S2 E2) as [DX DY].
  assert (DX' : cos t - cos (t + sw) = cos t' - cos (t' + sw')) by (apply (Rmult_eq_reg_l a); lra).
  assert (DY' : sin t - sin (t + sw) = sin t' - sin (t' + sw')) by (apply (Rmult_eq_reg_l b); lra).
  assert (CC : cos sw = cos sw'). { pose proof (chord_cos t sw) as H1. pose proof (chord_cos t' sw') as H2. rewrite <- DX', <- DY' in H2. lra. }
  assert (SW : sw = sw').
  { destruct SG as [[P1 P2]|[P1 P2]].
    - rewrite !Rabs_right in LG by lra. now apply cos_same.
    - rewrite !Rabs_left in LG by lra. assert (- sw = - sw'); [|lra]. apply cos_same; try lra. now rewrite !cos_neg. }
  subst sw'. assert (C1 : cos sw < 1). { destruct SG as [[P1 _]|[P1 _]]; [apply cos_lt1; auto|]. rewrite <- cos_neg. apply cos_lt1. lra. }
  rewrite !cos_plus in DX'. rewrite !sin_plus in DY'. pose proof (cs1 sw) as CS.
  assert (UX : cos t = cos t').
  { apply (Rmult_eq_reg_l (2 - 2 * cos sw)); [|lra].
    transitivity ((1 - cos sw) * (cos t - (cos t * cos sw - sin t * sin sw)) - sin sw * (sin t - (sin t * cos sw + cos t * sin sw)) + (1 - (cos sw * cos sw + sin sw * sin sw)) * cos t); [ring|].
    rewrite DX', DY', CS. transitivity ((1 - cos sw) * (cos t' - (cos t' * cos sw - sin t' * sin sw)) - sin sw * (sin t' - (sin t' * cos sw + cos t' * sin sw)) + (1 - (cos sw * cos sw + sin sw * sin sw)) * cos t'); [rewrite CS; ring|ring]. }
  assert (UY : sin t = sin t').
  { apply (Rmult_eq_reg_l (2 - 2 * cos sw)); [|lra].
    transitivity ((1 - cos sw) * (sin t - (sin t * cos sw + cos t * sin sw)) + sin sw * (cos t - (cos t * cos sw - sin t * sin sw)) + (1 - (cos sw * cos sw + sin sw * sin sw)) * sin t); [ring|].
    rewrite DX', DY', CS. transitivity ((1 - cos sw) * (sin t' - (sin t' * cos sw + cos t' * sin sw)) + sin sw * (cos t' - (cos t' * cos sw - sin t' * sin sw)) + (1 - (cos sw * cos sw + sin sw * sin sw)) * sin t'); [rewrite CS; ring|ring]. }
  split; [|auto]. rewrite UX, UY in S2. unfold frame in S2. injection S2 as H1 H2. apply pt_ext; lra.
Qed.

(** An arc that already spans the two points with radii that fit is not scaled. *)
Lemma own_fits : forall A t0, proper_at A t0 -> fits (a_start A) (a_end A) (arx A) (ary A) (rotation A).
Proof.
  intros A t0 (X & Y & -> & ->). exists (a_center A). split; [exists (arx A * cos t0), (ary A * sin t0)|exists (arx A * cos (t0 + a_sweep A)), (ary A * sin (t0 + a_sweep A))]; (split; [reflexivity|]).
  - replace (arx A * cos t0 / arx A) with (cos t0) by (field; lra). replace (ary A * sin t0 / ary A) with (sin t0) by (field; lra). pose proof (cs1 t0). lra.
  - replace (arx A * cos (t0 + a_sweep A) / arx A) with (cos (t0 + a_sweep A)) by (field; lra). replace (ary A * sin (t0 + a_sweep A) / ary A) with (sin (t0 + a_sweep A)) by (field; lra). pose proof (cs1 (t0 + a_sweep A)). lra.
Qed.
Lemma deg_rad : forall x, math_radians (as_degrees x) = x.
Proof. intros x. unfold math_radians, as_degrees, tau. field. apply PI_neq0. Qed.
Lemma arc_d_again : forall A t0, proper_at A t0 -> ~ p_eq (a_start A) (a_end A) -> 0 < Rabs (a_sweep A) < 2 * PI ->
  let '(rx, ry, rot, large, swp) := arc_d A in
  let B := svg_parameterize (a_start A) rx ry rot large swp (a_end A) in
  a_start B = a_start A /\ a_end B = a_end A /\ a_center B = a_center A /\ a_prx B = a_prx A /\ arx B = arx A /\ ary B = ary A /\ a_sweep B = a_sweep A /\
  (forall t, arc_point B t = arc_point A t).
Proof.
  intros A t0 PA NP SW. unfold arc_d. set (large := if Rlt_dec _ _ then true else false). set (swp := if Rle_dec _ _ then true else false). cbv zeta.
  pose proof PA as (X & Y & ST & EN).
  pose proof (svg_main (a_start A) (a_end A) (arx A) (ary A) (as_degrees (rotation A)) large swp X Y NP) as M. cbv zeta in M.
  set (B := svg_parameterize _ _ _ _ _ _ _) in *. destruct M as (BS & BE & (k & K1 & KX & KY & KF) & RC & RS & PY & (t1 & PB) & SR & L1 & L2). rewrite deg_rad in *.
  assert (k = 1). { destruct (Req_dec k 1); auto. exfalso. apply (KF 1); [lra|]. rewrite !Rmult_1_l. now apply (own_fits A t0). }
  subst k. rewrite Rmult_1_l in KX, KY. pose proof (arc_runs_own B t1 PB) as BR. pose proof (arc_runs_own A t0 PA) as AR. destruct PB as (_ & _ & ST' & EN').
  assert (EA : forall t, ellipse_at (a_center B) (arx B) (ary B) (rotation B) t = ellipse_at (a_center B) (arx A) (ary A) (rotation A) t).
  { intros t. rewrite KX, KY. unfold ellipse_at, frame. now rewrite RC, RS. }
  rewrite EA in ST', EN'. rewrite BS in ST'. rewrite BE in EN'.
  assert (PI2 : tau / 2 = PI) by (unfold tau; lra).
  assert (U : a_center A = a_center B /\ a_sweep A = a_sweep B /\ cos t0 = cos t1 /\ sin t0 = sin t1).
  { apply (arc_unique (a_start A) (a_end A) (arx A) (ary A) (rotation A)); auto.
    - unfold swp in SR. destruct (Rle_dec 0 (a_sweep A)); [left|right]; split; auto.
      + rewrite Rabs_right in SW by lra. lra. + rewrite Rabs_left in SW by lra. lra.
    - unfold large in L1, L2. destruct (Rlt_dec (tau / 2) (Rabs (a_sweep A))); [right|left]; split; auto; lra. }
  destruct U as (UC & US & U1 & U2). rewrite <- UC in *.
  split; auto. split; auto. split; auto. split.
  { pose proof (polar_angle_lemma (a_center A) (a_prx A)) as [PL _]. pose proof (polar_angle_lemma (a_center B) (a_prx B)) as [PL' _]. rewrite <- UC in PL'.
    rewrite <- PL, <- PL'. fold (rotation A). fold (arx A).
    replace (distance (a_center A) (a_prx B)) with (arx B) by (unfold arx; now rewrite <- UC). replace (angle (a_center A) (a_prx B)) with (rotation B) by (unfold rotation; now rewrite <- UC).
    rewrite KX. unfold polar. now rewrite RC, RS. }
  split; auto. split; auto. split; auto. intros t. rewrite BR, AR. rewrite <- US, KX, KY. unfold ellipse_at, frame. rewrite RC, RS.
  destruct (cs_add t0 t1 (t * a_sweep A) U1 U2) as [<- <-]. reflexivity.
Qed.

(** * Reversal and transformation *)
Lemma arc_reverse_proper : forall A t0, proper_at A t0 -> proper_at (arc_reverse A) (t0 + a_sweep A).
Proof.
  intros A t0 (X & Y & S & E). unfold proper_at, arc_reverse, arx, ary, rotation in *. cbn [a_start a_end a_center a_prx a_pry a_sweep] in *.
  split; auto. split; auto. split; auto. rewrite S. f_equal. ring.
Qed.
Lemma perp_turn : forall l1 l2 u v x y, u * u + v * v = 1 -> 0 < l1 -> 0 < l2 -> (l1 * u) * x + (l1 * v) * y = 0 -> x * x + y * y = l2 * l2 -> 0 < (l1 * u) * y - (l1 * v) * x -> x = - l2 * v /\ y = l2 * u.
Proof.
  intros l1 l2 u v x y U L1 L2 D N C. assert (D' : u * x + v * y = 0) by (apply (Rmult_eq_reg_l l1); lra). set (k := u * y - v * x).
  assert (K : 0 < k). { unfold k. apply (Rmult_lt_reg_l l1); auto. lra. }
  assert (X : x = - k * v). { unfold k. transitivity ((u * u + v * v) * x); [rewrite U; ring|]. transitivity (u * (u * x + v * y) - v * (u * y - v * x)); [ring|rewrite D'; ring]. }
  assert (Y : y = k * u). { unfold k. transitivity ((u * u + v * v) * y); [rewrite U; ring|]. transitivity (v * (u * x + v * y) + u * (u * y - v * x)); [ring|rewrite D'; ring]. }
  assert (k * k = l2 * l2). { rewrite <- N. transitivity (k * k * (u * u + v * v)); [rewrite U; ring|]. rewrite X, Y. ring. }
  assert (k = l2) by nra. rewrite <- H0. auto.
Qed.
Lemma distance_sq : forall p q, distance p q * distance p q = (px q - px p) * (px q - px p) + (py q - py p) * (py q - py p).
Proof. intros p q. unfold distance. rewrite sqrt_sqrt; [ring|]. pose proof (sq_pos (px p - px q)). pose proof (sq_pos (py p - py q)). lra. Qed.
Lemma prx_frame : forall A, px (a_prx A) = px (a_center A) + arx A * cos (rotation A) /\ py (a_prx A) = py (a_center A) + arx A * sin (rotation A).
Proof.
  intros A. pose proof (polar_angle_lemma (a_center A) (a_prx A)) as [PL _]. fold (arx A) in PL. fold (rotation A) in PL.
  split; [rewrite <- (f_equal px PL)|rewrite <- (f_equal py PL)]; unfold polar; cbn [px py]; ring.
Qed.
Lemma arc_mul_proper : forall A t0 m, proper_at A t0 -> right_handed A -> det m <> 0 ->
  dotp (apply_mx m (a_center A)) (apply_mx m (a_prx A)) (apply_mx m (a_pry A)) = 0 ->
  (det m < 0 <-> (ma m < 0 /\ 0 <= md m) \/ (0 <= ma m /\ md m < 0)) ->
  let sg := if Rlt_dec (det m) 0 then -1 else 1 in
  let B := arc_mul A m in
  proper_at B (sg * t0) /\ a_sweep B = sg * a_sweep A /\
  (forall x, ellipse_at (a_center B) (arx B) (ary B) (rotation B) (sg * x) = apply_mx m (ellipse_at (a_center A) (arx A) (ary A) (rotation A) x)).
Proof.
  intros A t0 m (X & Y & ST & EN) RH DZ PE SG. cbv zeta. set (sg := if Rlt_dec (det m) 0 then -1 else 1). set (B := arc_mul A m).
  assert (SW : a_sweep B = sg * a_sweep A).
  { unfold B, arc_mul, sg. cbn [a_sweep]. destruct (Rlt_dec (ma m) 0), (Rlt_dec (md m) 0), (Rlt_dec (det m) 0); try ring; exfalso; intuition lra. }
  destruct (prx_frame A) as [P1 P2]. unfold right_handed, polar in RH. rewrite cos_plus, sin_plus, cos_PI2, sin_PI2 in RH.
  destruct (prx_frame B) as [Q1 Q2]. set (c := a_center A) in *. set (rho := rotation A) in *. set (rho' := rotation B) in *. set (l1 := arx B) in *. set (l2 := ary B) in *.
  set (a := arx A) in *. set (b := ary A) in *.
  change (a_prx B) with (apply_mx m (a_prx A)) in Q1, Q2. change (a_center B) with (apply_mx m c) in Q1, Q2.
  assert (N1 : l1 * l1 = (px (apply_mx m (a_prx A)) - px (apply_mx m c)) * (px (apply_mx m (a_prx A)) - px (apply_mx m c)) + (py (apply_mx m (a_prx A)) - py (apply_mx m c)) * (py (apply_mx m (a_prx A)) - py (apply_mx m c))) by (apply distance_sq).
  assert (N2 : l2 * l2 = (px (apply_mx m (a_pry A)) - px (apply_mx m c)) * (px (apply_mx m (a_pry A)) - px (apply_mx m c)) + (py (apply_mx m (a_pry A)) - py (apply_mx m c)) * (py (apply_mx m (a_pry A)) - py (apply_mx m c))) by (apply distance_sq).
  set (x1 := ma m * (a * cos rho) + mc m * (a * sin rho)). set (y1 := mb m * (a * cos rho) + md m * (a * sin rho)).
  set (x2 := ma m * (- b * sin rho) + mc m * (b * cos rho)). set (y2 := mb m * (- b * sin rho) + md m * (b * cos rho)).
  assert (E1 : px (apply_mx m (a_prx A)) - px (apply_mx m c) = x1) by (unfold apply_mx, x1; cbn [px py]; rewrite P1, P2; ring).
  assert (E2 : py (apply_mx m (a_prx A)) - py (apply_mx m c) = y1) by (unfold apply_mx, y1; cbn [px py]; rewrite P1, P2; ring).
  assert (E3 : px (apply_mx m (a_pry A)) - px (apply_mx m c) = x2) by (rewrite RH; unfold apply_mx, x2; cbn [px py]; ring).
  assert (E4 : py (apply_mx m (a_pry A)) - py (apply_mx m c) = y2) by (rewrite RH; unfold apply_mx, y2; cbn [px py]; ring).
  rewrite E1, E2 in N1. rewrite E3, E4 in N2. unfold dotp in PE. fold c in PE. rewrite E1, E2, E3, E4 in PE.
  assert (U1 : x1 = l1 * cos rho') by lra. assert (U2 : y1 = l1 * sin rho') by lra.
  assert (CR : x1 * y2 - y1 * x2 = a * b * det m). { unfold x1, x2, y1, y2, det. pose proof (cs1 rho) as C. transitivity (a * b * (ma m * md m - mb m * mc m) * (cos rho * cos rho + sin rho * sin rho)); [ring|rewrite C; ring]. }
  assert (AB : 0 < a * b) by (apply Rmult_lt_0_compat; auto).
  assert (CZ : x1 * y2 - y1 * x2 <> 0). { rewrite CR. intros Z. apply Rmult_integral in Z. destruct Z; lra. }
  assert (L1 : 0 < l1). { assert (0 <= l1) by (apply sqrt_pos). destruct (Req_dec l1 0) as [Z|]; [|lra]. exfalso. rewrite Z in U1, U2. apply CZ. rewrite U1, U2. ring. }
  assert (L2 : 0 < l2). { assert (0 <= l2) by (apply sqrt_pos). destruct (Req_dec l2 0) as [Z|]; [|lra]. exfalso. rewrite Z in N2. pose proof (sq_pos x2). pose proof (sq_pos y2). assert (X20 : x2 = 0) by nra. assert (Y20 : y2 = 0) by nra. apply CZ. rewrite X20, Y20. ring. }
  assert (V : x2 = sg * (- l2 * sin rho') /\ y2 = sg * (l2 * cos rho')).
  { pose proof (cs1 rho') as C. unfold sg. destruct (Rlt_dec (det m) 0) as [D|D].
    - destruct (perp_turn l1 l2 (cos rho') (sin rho') (- x2) (- y2)) as [W1 W2]; auto; rewrite <- ?U1, <- ?U2; try lra. assert (x1 * y2 - y1 * x2 < 0) by (rewrite CR; nra). lra.
    - destruct (perp_turn l1 l2 (cos rho') (sin rho') x2 y2) as [W1 W2]; auto; rewrite <- ?U1, <- ?U2; try lra. assert (0 < det m) by lra. rewrite CR. nra. }
  destruct V as [V1 V2]. assert (SG2 : sg * sg = 1) by (unfold sg; destruct (Rlt_dec (det m) 0); ring).
  assert (ELL : forall x, ellipse_at (a_center B) l1 l2 rho' (sg * x) = apply_mx m (ellipse_at c a b rho x)).
  { intros x. assert (CS : cos (sg * x) = cos x /\ sin (sg * x) = sg * sin x). { unfold sg. destruct (Rlt_dec (det m) 0); [replace (-1 * x) with (- x) by ring; rewrite cos_neg, sin_neg; lra|rewrite !Rmult_1_l; auto]. }
    destruct CS as [CS1 CS2]. change (a_center B) with (apply_mx m c). unfold ellipse_at, frame. rewrite CS1, CS2.
    apply pt_ext; cbn [px py].
    - transitivity (px (apply_mx m c) + x1 * cos x + x2 * sin x); [rewrite U1, V1; ring|]. unfold apply_mx, x1, x2. cbn [px py]. ring.
    - transitivity (py (apply_mx m c) + y1 * cos x + y2 * sin x); [rewrite U2, V2; ring|]. unfold apply_mx, y1, y2. cbn [px py]. ring. }
  split; [|split; auto]. split; auto. split; auto. split.
  - change (a_start B) with (apply_mx m (a_start A)). rewrite ST. symmetry. apply ELL.
  - change (a_end B) with (apply_mx m (a_end A)). rewrite EN, SW, <- Rmult_plus_distr_l. symmetry. apply ELL.
Qed.
Lemma arc_mul_point : forall A t0 m, proper_at A t0 -> right_handed A -> det m <> 0 ->
  dotp (apply_mx m (a_center A)) (apply_mx m (a_prx A)) (apply_mx m (a_pry A)) = 0 ->
  (det m < 0 <-> (ma m < 0 /\ 0 <= md m) \/ (0 <= ma m /\ md m < 0)) ->
  forall t, arc_point (arc_mul A m) t = apply_mx m (arc_point A t).
Proof.
  intros A t0 m PA RH DZ PE SG t. destruct (arc_mul_proper A t0 m PA RH DZ PE SG) as (PB & SW & EL).
  rewrite (arc_runs_own _ _ PB), (arc_runs_own _ _ PA), <- EL. f_equal. rewrite SW. ring.
Qed.
Lemma arc_reverse_point : forall A t0, proper_at A t0 -> forall t, arc_point (arc_reverse A) t = arc_point A (1 - t).
Proof.
  intros A t0 PA t. rewrite (arc_runs_own _ _ (arc_reverse_proper _ _ PA)), (arc_runs_own _ _ PA). unfold arc_reverse, arx, ary, rotation. cbn [a_start a_end a_center a_prx a_pry a_sweep]. f_equal. ring.
Qed.
