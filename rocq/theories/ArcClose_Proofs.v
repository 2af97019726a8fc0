(** Proofs about the distance between arcs and the curves made of them. *)
Require Import Reals ZArith List Bool Lra Lia Psatz.
Require Import Verif.Base Verif.Angle_Model Verif.Angle_Proofs Verif.Point_Model Verif.Point_Proofs Verif.Matrix_Model Verif.Curve_Model Verif.Curve_Spec.
Require Import Verif.Arc_Model Verif.Arc_Spec Verif.Arc_Proofs Verif.ArcCurves_Proofs Verif.ArcClose_Spec.
Import ListNotations.
Open Scope R_scope.

(** The point with coordinates [x], [y] in the circle's own frame turned by [m]. *)
Definition local (c : pt) (rx ry rot m x y : R) : pt := frame c rot (rx * (cos m * x - sin m * y)) (ry * (sin m * x + cos m * y)).
Lemma local_at : forall c rx ry rot m t, ellipse_at c rx ry rot (m + t) = local c rx ry rot m (cos t) (sin t).
Proof. intros. unfold local, ellipse_at, frame. rewrite cos_plus, sin_plus. apply pt_ext; cbn [px py]; ring. Qed.
Lemma local_size : forall c rx ry rot m x y k, 0 < rx -> 0 < ry -> 0 < k -> x * x + y * y = k * k -> at_size c rx ry rot (local c rx ry rot m x y) k.
Proof.
  intros c rx ry rot m x y k X Y K E. split; auto. eexists. eexists. split; [reflexivity|].
  replace ((rx * (cos m * x - sin m * y) / (k * rx)) ^ 2 + (ry * (sin m * x + cos m * y) / (k * ry)) ^ 2) with (((cos m * cos m + sin m * sin m) * (x * x + y * y)) / (k * k)) by (field; lra).
  rewrite cs1, E. field. lra.
Qed.
Lemma local_dist : forall c rx ry rot m x y l, 0 < rx -> 0 < ry -> x * x + y * y = 1 ->
  dist (local c rx ry rot m x y) (local c rx ry rot m (l * x) (l * y)) <= Rabs (1 - l) * Rmax rx ry.
Proof.
  intros c rx ry rot m x y l X Y E. set (a := cos m * x - sin m * y). set (b := sin m * x + cos m * y).
  assert (AB : a * a + b * b = 1). { transitivity ((cos m * cos m + sin m * sin m) * (x * x + y * y)); [unfold a, b; ring|rewrite cs1, E; ring]. }
  unfold dist, local, frame. cbn [px py].
  match goal with |- sqrt ?e <= _ => replace e with (Rsqr (1 - l) * ((cos rot * cos rot + sin rot * sin rot) * ((rx * a) * (rx * a) + (ry * b) * (ry * b)))) by (unfold Rsqr, a, b; ring) end.
  rewrite cs1, Rmult_1_l, sqrt_mult_alt by apply Rle_0_sqr. rewrite sqrt_Rsqr_abs. apply Rmult_le_compat_l; [apply Rabs_pos|].
  assert (M0 : 0 <= Rmax rx ry) by (apply Rle_trans with rx; [lra|apply Rmax_l]).
  rewrite <- (sqrt_square (Rmax rx ry)) by auto. apply sqrt_le_1_alt. pose proof (Rmax_l rx ry). pose proof (Rmax_r rx ry).
  pose proof (sq_pos a). pose proof (sq_pos b). assert (rx * rx <= Rmax rx ry * Rmax rx ry) by nra. assert (ry * ry <= Rmax rx ry * Rmax rx ry) by nra. nra.
Qed.

(** * Cubic pieces *)
Section Cubic.
  Variables h : R.
  Hypothesis H : - (PI / 2) < h < PI / 2.
  Let c := cos h.
  Let s := sin h.
  Let alpha := sin (2 * h) * (sqrt (4 + 3 * tan h ^ 2) - 1) / 3.
  Definition bx (u : R) : R := c + 3 * (u * (1 - u)) * (alpha * s).
  Definition by_ (u : R) : R := (2 * u - 1) * (s + u * (1 - u) * (2 * s - 3 * alpha * c)).
  Let k := sqrt (c * c + 3).
  Lemma c_pos : 0 < c. Proof. apply cos_gt_0; apply H. Qed.
  Lemma cs_one : c * c + s * s = 1. Proof. apply cs1. Qed.
  Lemma k_sq : k * k = c * c + 3. Proof. apply sqrt_sqrt. pose proof (sq_pos c). lra. Qed.
  Lemma k_ge : 2 * c <= k.
  Proof.
    pose proof c_pos. unfold k. rewrite <- (sqrt_square (2 * c)) by lra. apply sqrt_le_1_alt. pose proof cs_one. pose proof (sq_pos s). lra.
  Qed.
  Lemma alpha_k : alpha = 2 * s * (k - c) / 3.
  Proof.
    pose proof c_pos as C. unfold alpha. assert (Q : sqrt (4 + 3 * tan h ^ 2) = k / c).
    { unfold k. rewrite <- (sqrt_square (sqrt (c * c + 3) / c)). 2:{ apply Rmult_le_pos; [apply sqrt_pos|]. left. now apply Rinv_0_lt_compat. }
      f_equal. replace (sqrt (c * c + 3) / c * (sqrt (c * c + 3) / c)) with (k * k / (c * c)) by (unfold k; field; lra). rewrite k_sq. unfold tan. fold c s.
      apply Rmult_eq_reg_r with (c * c); [|nra]. replace ((4 + 3 * (s / c) ^ 2) * (c * c)) with (4 * (c * c) + 3 * (s * s)) by (field; lra). replace ((c * c + 3) / (c * c) * (c * c)) with (c * c + 3) by (field; lra). pose proof cs_one. lra. }
    rewrite Q, sin_2a. fold c s. field. lra.
  Qed.
  Lemma level : forall u, let w := u * (1 - u) in bx u * bx u + by_ u * by_ u = 1 - 4 * w ^ 3 * (2 * s - 3 * alpha * c) ^ 2.
  Proof.
    intros u w. assert (Z : 3 * alpha * alpha + 4 * alpha * c * s - 4 * s * s = 0).
    { rewrite alpha_k. pose proof k_sq as K. pose proof cs_one. replace (3 * (2 * s * (k - c) / 3) * (2 * s * (k - c) / 3) + 4 * (2 * s * (k - c) / 3) * c * s - 4 * s * s) with (4 * s * s / 3 * (k * k - c * c - 3)) by field. rewrite K. field. }
    pose proof cs_one as CS.
    assert (B : bx u * bx u + by_ u * by_ u = (c * c + s * s) + w ^ 2 * (9 * alpha ^ 2 * (c * c + s * s) + 12 * alpha * c * s - 12 * s * s) - 4 * w ^ 3 * (2 * s - 3 * alpha * c) ^ 2) by (unfold bx, by_, w; ring).
    rewrite B, CS. replace (9 * alpha ^ 2 * 1 + 12 * alpha * c * s - 12 * s * s) with (3 * (3 * alpha * alpha + 4 * alpha * c * s - 4 * s * s)) by ring. rewrite Z. ring.
  Qed.
  Lemma defect : (2 * s - 3 * alpha * c) ^ 2 * (4 - 3 * s ^ 2) ^ 2 <= 4 * s ^ 6.
  Proof.
    pose proof c_pos as C. pose proof k_sq as K. pose proof k_ge as G. pose proof cs_one as CS.
    assert (E : (2 * s - 3 * alpha * c) * (1 + c * c + c * k) = 2 * s ^ 3).
    { rewrite alpha_k. replace ((2 * s - 3 * (2 * s * (k - c) / 3) * c) * (1 + c * c + c * k)) with (2 * s * ((1 + c * c) * (1 + c * c) - c * c * (k * k))) by field. rewrite K. replace (c * c) with (1 - s * s) by lra. ring. }
    assert (D : 0 < 4 - 3 * s ^ 2 <= 1 + c * c + c * k) by (assert (S2E : s ^ 2 = 1 - c * c) by (replace (s ^ 2) with (s * s) by ring; lra); rewrite S2E; split; nra).
    replace (4 * s ^ 6) with ((2 * s ^ 3) ^ 2) by ring. rewrite <- E. set (x := 2 * s - 3 * alpha * c). set (d := 1 + c * c + c * k) in *. set (e := 4 - 3 * s ^ 2) in *.
    replace ((x * d) ^ 2) with (x ^ 2 * d ^ 2) by ring. apply Rmult_le_compat_l; [rewrite <- Rsqr_pow2; apply Rle_0_sqr|]. simpl. nra.
  Qed.
  Definition slack : R := s ^ 6 / (4 * (4 - 3 * s ^ 2) ^ 2).
  Lemma level_range : forall u, 0 <= u <= 1 -> 1 - slack <= bx u * bx u + by_ u * by_ u <= 1.
  Proof.
    intros u U. rewrite level. cbv zeta. remember (u * (1 - u)) as w eqn:WE.
    assert (W0 : 0 <= w) by (subst w; nra). assert (W1 : w <= / 4) by (subst w; pose proof (sq_pos (2 * u - 1)); lra). assert (W : 0 <= w <= / 4) by lra.
    pose proof defect as D. pose proof cs_one as CS. pose proof c_pos as C. assert (E : 1 <= (4 - 3 * s ^ 2) ^ 2) by (assert (S2E : s ^ 2 = 1 - c * c) by (replace (s ^ 2) with (s * s) by ring; lra); rewrite S2E; nra).
    set (q := (2 * s - 3 * alpha * c) ^ 2) in *. set (e := (4 - 3 * s ^ 2) ^ 2) in *. assert (Q : 0 <= q) by (unfold q; rewrite <- Rsqr_pow2; apply Rle_0_sqr).
    assert (W3 : 0 <= 4 * w ^ 3 <= / 16). { assert (0 <= w * w <= / 16) by nra. split; [|]; simpl; nra. }
    assert (4 * w ^ 3 * q <= slack). { unfold slack. fold e. apply Rmult_le_reg_r with (4 * e); [lra|]. replace (s ^ 6 / (4 * e) * (4 * e)) with (s ^ 6) by (field; lra). assert (4 * w ^ 3 * q <= / 16 * q) by nra. nra. }
    split; [lra|]. assert (0 <= 4 * w ^ 3 * q) by nra. lra.
  Qed.
  Lemma slack_lt1 : 0 <= slack < 1.
  Proof.
    pose proof cs_one as CS. pose proof c_pos as C. assert (S2 : 0 <= s ^ 2 <= 1) by (replace (s ^ 2) with (s * s) by ring; pose proof (sq_pos s); pose proof (sq_pos c); lra). unfold slack. assert (E : 1 <= (4 - 3 * s ^ 2) ^ 2) by nra. replace (s ^ 6) with (s ^ 2 * (s ^ 2 * s ^ 2)) by ring.
    set (x := s ^ 2) in *. assert (0 <= x * (x * x) <= 1) by (split; nra). split.
    - apply Rmult_le_pos; [lra|]. left. apply Rinv_0_lt_compat. lra.
    - apply Rmult_lt_reg_r with (4 * (4 - 3 * x) ^ 2); [lra|]. replace (x * (x * x) / (4 * (4 - 3 * x) ^ 2) * (4 * (4 - 3 * x) ^ 2)) with (x * (x * x)) by (field; lra). lra.
  Qed.
  Lemma bx_pos : forall u, 0 <= u <= 1 -> 0 < bx u.
  Proof.
    intros u U. pose proof c_pos. unfold bx. assert (0 <= alpha * s). { rewrite alpha_k. pose proof k_ge. pose proof (sq_pos s). replace (2 * s * (k - c) / 3 * s) with (2 / 3 * ((k - c) * (s * s))) by field. nra. }
    assert (0 <= u * (1 - u)) by nra. nra.
  Qed.
  (** Every direction of the piece is met. *)
  Lemma direction : forall p, - Rabs h <= p <= Rabs h -> exists u l, 0 <= u <= 1 /\ 0 < l <= 1 /\ 1 - slack <= l * l /\ bx u = l * cos p /\ by_ u = l * sin p.
  Proof.
    intros p Hp. set (f := fun u => by_ u * cos p - bx u * sin p).
    assert (CT : continuity f) by (apply derivable_continuous; unfold f, bx, by_; intros x; eexists; repeat (try apply derivable_pt_lim_minus; try apply derivable_pt_lim_plus; try apply derivable_pt_lim_mult; try apply derivable_pt_lim_const; try apply derivable_pt_lim_id)).
    assert (AH : Rabs h < PI / 2) by (apply Rabs_def1; lra).
    assert (SP : sin p * sin p <= s * s).
    { assert (sin p * sin p <= sin (Rabs h) * sin (Rabs h)).
      { destruct (Rle_dec 0 p); [|assert (0 <= - p) by lra; replace (sin p * sin p) with (sin (- p) * sin (- p)) by (rewrite sin_neg; ring)].
        - assert (0 <= sin p) by (apply sin_ge_0; lra). assert (sin p <= sin (Rabs h)) by (apply sin_incr_1; lra). nra.
        - assert (0 <= sin (- p)) by (apply sin_ge_0; lra). assert (sin (- p) <= sin (Rabs h)) by (apply sin_incr_1; lra). nra. }
      unfold s. unfold Rabs in H0. destruct (Rcase_abs h); [rewrite sin_neg in H0; lra|auto]. }
    destruct (IVT_cor f 0 1 CT ltac:(lra)) as (u & U & FU).
    - pose proof cs_one. pose proof (cs1 p). unfold f, bx, by_. replace (((2 * 0 - 1) * (s + 0 * (1 - 0) * (2 * s - 3 * alpha * c)) * cos p - (c + 3 * (0 * (1 - 0)) * (alpha * s)) * sin p) * ((2 * 1 - 1) * (s + 1 * (1 - 1) * (2 * s - 3 * alpha * c)) * cos p - (c + 3 * (1 * (1 - 1)) * (alpha * s)) * sin p)) with (c * c * (sin p * sin p) - s * s * (cos p * cos p)) by ring.
      replace (c * c) with (1 - s * s) by lra. replace (cos p * cos p) with (1 - sin p * sin p) by lra. lra.
    - pose proof (cs1 p) as CP. set (l := bx u * cos p + by_ u * sin p). unfold f in FU.
      assert (X : bx u = l * cos p). { unfold l. transitivity (bx u * (cos p * cos p + sin p * sin p) + sin p * (by_ u * cos p - bx u * sin p)); [rewrite CP, FU; ring|ring]. }
      assert (Y : by_ u = l * sin p). { unfold l. transitivity (by_ u * (cos p * cos p + sin p * sin p) - cos p * (by_ u * cos p - bx u * sin p)); [rewrite CP, FU; ring|ring]. }
      assert (LL : l * l = bx u * bx u + by_ u * by_ u). { rewrite X, Y. transitivity (l * l * (cos p * cos p + sin p * sin p)); [rewrite CP; ring|ring]. }
      assert (0 < cos p) by (apply cos_gt_0; lra). pose proof (bx_pos u U). assert (0 < l) by (destruct (Rle_lt_dec l 0); auto; nra). pose proof (level_range u U).
      exists u, l. split; auto. split; [split; auto; nra|]. split; [lra|auto].
  Qed.
  Lemma cubic_local : forall cc rx ry rot m u, let f := ellipse_at cc rx ry rot in let v := ellipse_vel rx ry rot in
    cubic_point (f (m + - h)) (along (f (m + - h)) (v (m + - h)) alpha) (along (f (m + h)) (v (m + h)) (- alpha)) (f (m + h)) u = local cc rx ry rot m (bx u) (by_ u).
  Proof.
    intros cc rx ry rot m u f v. unfold f, v, cubic_point, cubic1, along, ellipse_at, ellipse_vel, local, frame, bx, by_. rewrite !cos_plus, !sin_plus, !cos_neg, !sin_neg. fold c s. apply pt_ext; cbn [px py]; ring.
  Qed.
End Cubic.

(** * Quadratic pieces *)
Section Quad.
  Variables h : R.
  Hypothesis H : - (PI / 2) < h < PI / 2.
  Let c := cos h.
  Let s := sin h.
  Hypothesis N : 3 <= 2 * c * c + 2 * c.
  Let k := (4 - cos (2 * h)) / 3.
  Definition qx (u : R) : R := c + 2 * (u * (1 - u)) * (k - c).
  Definition qy (u : R) : R := (2 * u - 1) * s.
  Definition bulge : R := (2 * c - 1) * (1 - c) / 6.
  Lemma k_c : k = (5 - 2 * (c * c)) / 3.
  Proof. unfold k. rewrite cos_2a_cos. fold c. field. Qed.
  Lemma c_range : / 2 < c <= 1.
  Proof. pose proof (cos_gt_0 h (proj1 H) (proj2 H)) as C. fold c in C. pose proof (COS_bound h) as B. fold c in B. split; [|lra]. destruct (Rle_lt_dec c (/ 2)); auto. nra. Qed.
  Lemma bulge_pos : 0 <= bulge.
  Proof. pose proof c_range. unfold bulge. apply Rmult_le_pos; [|lra]. apply Rmult_le_pos; lra. Qed.
  Lemma quad_level : forall u, 0 <= u <= 1 -> 1 <= qx u * qx u + qy u * qy u <= (1 + bulge) * (1 + bulge).
  Proof.
    intros u U. pose proof c_range as CR. pose proof (cs1 h) as CS. fold c s in CS. remember (u * (1 - u)) as w eqn:WE.
    assert (W0 : 0 <= w) by (subst w; nra). assert (W1 : w <= / 4) by (subst w; pose proof (sq_pos (2 * u - 1)); lra).
    assert (L : qx u * qx u + qy u * qy u = (c * c + s * s) + 4 * w * (c * k - (c * c + s * s)) + 4 * (w * w) * ((k - c) * (k - c))) by (unfold qx, qy; subst w; ring). rewrite CS in L. rewrite L. clear L.
    assert (CK : c * k - 1 = (1 - c) * (2 * c * c + 2 * c - 3) / 3) by (rewrite k_c; field).
    assert (B : 1 + bulge = (c + k) / 2) by (rewrite k_c; unfold bulge; field).
    assert (P0 : 0 <= c * k - 1). { rewrite CK. apply Rmult_le_pos; [|lra]. apply Rmult_le_pos; lra. }
    pose proof (sq_pos (k - c)) as Q. rewrite B. split.
    - assert (0 <= w * (c * k - 1)) by (apply Rmult_le_pos; auto). assert (0 <= w * w * ((k - c) * (k - c))) by (apply Rmult_le_pos; auto; apply Rmult_le_pos; auto). lra.
    - replace ((c + k) / 2 * ((c + k) / 2)) with (1 + (c * k - 1) + (k - c) * (k - c) / 4) by field.
      assert (w * (c * k - 1) <= / 4 * (c * k - 1)) by (apply Rmult_le_compat_r; auto). assert (w * w <= / 4 * / 4) by (apply Rmult_le_compat; auto).
      assert (w * w * ((k - c) * (k - c)) <= / 4 * / 4 * ((k - c) * (k - c))) by (apply Rmult_le_compat_r; auto). lra.
  Qed.
  Lemma quad_direction : forall p, - Rabs h <= p <= Rabs h -> exists u l, 0 <= u <= 1 /\ 1 <= l <= 1 + bulge /\ qx u = l * cos p /\ qy u = l * sin p.
  Proof.
    intros p Hp. set (f := fun u => qy u * cos p - qx u * sin p).
    assert (CT : continuity f) by (apply derivable_continuous; unfold f, qx, qy; intros x; eexists; repeat (try apply derivable_pt_lim_minus; try apply derivable_pt_lim_plus; try apply derivable_pt_lim_mult; try apply derivable_pt_lim_const; try apply derivable_pt_lim_id)).
    assert (AH : Rabs h < PI / 2) by (apply Rabs_def1; lra).
    assert (SP : sin p * sin p <= s * s).
    { assert (S0 : sin p * sin p <= sin (Rabs h) * sin (Rabs h)).
      { destruct (Rle_dec 0 p); [|assert (0 <= - p) by lra; replace (sin p * sin p) with (sin (- p) * sin (- p)) by (rewrite sin_neg; ring)].
        - assert (0 <= sin p) by (apply sin_ge_0; lra). assert (sin p <= sin (Rabs h)) by (apply sin_incr_1; lra). nra.
        - assert (0 <= sin (- p)) by (apply sin_ge_0; lra). assert (sin (- p) <= sin (Rabs h)) by (apply sin_incr_1; lra). nra. }
      unfold s. unfold Rabs in S0. destruct (Rcase_abs h); [rewrite sin_neg in S0; lra|auto]. }
    destruct (IVT_cor f 0 1 CT ltac:(lra)) as (u & U & FU).
    - pose proof (cs1 h) as CS. fold c s in CS. pose proof (cs1 p). unfold f, qx, qy. replace (((2 * 0 - 1) * s * cos p - (c + 2 * (0 * (1 - 0)) * (k - c)) * sin p) * ((2 * 1 - 1) * s * cos p - (c + 2 * (1 * (1 - 1)) * (k - c)) * sin p)) with (c * c * (sin p * sin p) - s * s * (cos p * cos p)) by ring.
      replace (c * c) with (1 - s * s) by lra. replace (cos p * cos p) with (1 - sin p * sin p) by lra. lra.
    - pose proof (cs1 p) as CP. set (l := qx u * cos p + qy u * sin p). unfold f in FU.
      assert (X : qx u = l * cos p). { unfold l. transitivity (qx u * (cos p * cos p + sin p * sin p) + sin p * (qy u * cos p - qx u * sin p)); [rewrite CP, FU; ring|ring]. }
      assert (Y : qy u = l * sin p). { unfold l. transitivity (qy u * (cos p * cos p + sin p * sin p) - cos p * (qy u * cos p - qx u * sin p)); [rewrite CP, FU; ring|ring]. }
      assert (LL : l * l = qx u * qx u + qy u * qy u). { rewrite X, Y. transitivity (l * l * (cos p * cos p + sin p * sin p)); [rewrite CP; ring|ring]. }
      assert (CPP : 0 < cos p) by (apply cos_gt_0; lra). pose proof (quad_level u U) as QL. pose proof bulge_pos as BP.
      assert (QP : 0 < qx u). { pose proof c_range. unfold qx. rewrite k_c. assert (0 <= u * (1 - u)) by nra. assert (0 <= (5 - 2 * (c * c)) / 3 - c) by nra. nra. }
      assert (LP : 0 < l) by (destruct (Rle_lt_dec l 0); auto; nra). exists u, l. split; auto. split; [|auto]. rewrite <- LL in QL. split; nra.
  Qed.
  Lemma quad_local : forall cc rx ry rot m u, let f := ellipse_at cc rx ry rot in
    quad_point (f (m + - h)) (ellipse_at cc (k * rx) (k * ry) rot m) (f (m + h)) u = local cc rx ry rot m (qx u) (qy u).
  Proof.
    intros cc rx ry rot m u f. unfold f, quad_point, quad1, ellipse_at, local, frame, qx, qy. rewrite !cos_plus, !sin_plus, !cos_neg, !sin_neg. fold c s. apply pt_ext; cbn [px py]; ring.
  Qed.
End Quad.
