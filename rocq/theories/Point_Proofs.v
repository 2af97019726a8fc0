Require Import Reals Lra Psatz.
Require Import Verif.Angle_Model Verif.Point_Model Verif.Point_Spec.
Open Scope R_scope.

Lemma pt_ext : forall p q, px p = px q -> py p = py q -> p = q.
Proof. intros [x y] [u v]; simpl; intros; subst; auto. Qed.
Ltac peq := apply pt_ext; simpl; try ring; try lra.

Lemma sq_nonneg2 : forall x y, 0 <= x * x + y * y.
Proof. intros. nra. Qed.
Lemma hypot_sq : forall x y, hypot x y * hypot x y = x * x + y * y.
Proof. intros. apply sqrt_sqrt, sq_nonneg2. Qed.
Lemma hypot_nonneg : forall x y, 0 <= hypot x y.
Proof. intros. apply sqrt_pos. Qed.

Lemma abs_mult : forall p q, p_abs (p_mul p (APoint q)) = p_abs p * p_abs q.
Proof.
  intros. unfold p_abs, hypot. rewrite <- sqrt_mult by apply sq_nonneg2. f_equal. simpl. ring.
Qed.
Lemma abs_conj : forall p, p_mul p (APoint (conjugate p)) = P (p_abs p ^ 2) 0.
Proof. intros. peq. replace (p_abs p * (p_abs p * 1)) with (p_abs p * p_abs p) by ring. unfold p_abs. rewrite hypot_sq. ring. Qed.

Lemma euclid_distance : forall p q, euclid (px p) (py p) (px q) (py q) (distance p q).
Proof.
  intros. split. apply sqrt_pos. unfold distance. simpl. rewrite Rmult_1_r, sqrt_sqrt by apply sq_nonneg2. ring.
Qed.
Lemma distance_to_eq : forall p q, distance_to p q = distance p q.
Proof. reflexivity. Qed.
Lemma euclid_unique : forall a b c d x y, euclid a b c d x -> euclid a b c d y -> x = y.
Proof. unfold euclid. intros a b c d x y [A B] [C D]. rewrite <- D in B. apply Rsqr_inj; auto. unfold Rsqr. simpl in B. lra. Qed.
Lemma distance_sym : forall p q, distance p q = distance q p.
Proof. intros. unfold distance. f_equal. ring. Qed.
Lemma distance_zero : forall p q, distance p q = 0 <-> p = q.
Proof.
  intros. split.
  - intros H. unfold distance in H. apply sqrt_eq_0 in H; [|apply sq_nonneg2].
    pose proof (Rle_0_sqr (px p - px q)) as A. pose proof (Rle_0_sqr (py p - py q)) as B. unfold Rsqr in A, B.
    apply pt_ext; apply Rminus_diag_uniq, Rsqr_0_uniq; unfold Rsqr; lra.
  - intros ->. unfold distance. replace (_ + _) with 0 by ring. apply sqrt_0.
Qed.
Lemma hypot_triangle : forall a b c d, hypot (a + c) (b + d) <= hypot a b + hypot c d.
Proof.
  intros. pose proof (hypot_nonneg a b). pose proof (hypot_nonneg c d). pose proof (hypot_nonneg (a + c) (b + d)).
  pose proof (hypot_sq a b). pose proof (hypot_sq c d). pose proof (hypot_sq (a+c) (b+d)).
  assert (CS : a * c + b * d <= hypot a b * hypot c d).
  { destruct (Rle_dec (a*c+b*d) 0). nra. apply Rsqr_incr_0_var; [|nra]. unfold Rsqr.
    replace (hypot a b * hypot c d * (hypot a b * hypot c d)) with ((hypot a b * hypot a b) * (hypot c d * hypot c d)) by ring.
    rewrite H2, H3. pose proof (Rle_0_sqr (a * d - b * c)) as K. unfold Rsqr in K. lra. }
  apply Rsqr_incr_0_var; [|lra]. unfold Rsqr. nra.
Qed.
Lemma distance_triangle : forall p q r, distance p r <= distance p q + distance q r.
Proof.
  intros. pose proof (hypot_triangle (px p - px q) (py p - py q) (px q - px r) (py q - py r)).
  unfold distance. unfold hypot in H. 
  replace (px p - px r) with (px p - px q + (px q - px r)) by ring.
  replace (py p - py r) with (py p - py q + (py q - py r)) by ring. exact H.
Qed.

Lemma reflect_lemma : forall p c, reflected_across (reflected_across p c) c = p /\
  midpoint (px p) (py p) (px (reflected_across p c)) (py (reflected_across p c)) (px c) (py c) /\
  distance p c = distance (reflected_across p c) c.
Proof.
  intros. split; [|split].
  - peq.
  - unfold midpoint. simpl. split; ring.
  - unfold distance. simpl. f_equal. ring.
Qed.

Lemma towards_lemma : forall p q t, towards p q 0 = p /\ towards p q 1 = q /\
  move_towards p q t = towards p q t /\
  distance p (towards p q t) = Rabs t * distance p q /\ distance (towards p q t) q = Rabs (1 - t) * distance p q.
Proof.
  intros. repeat split.
  - peq.
  - peq.
  - peq.
  - unfold distance. simpl. rewrite <- sqrt_Rsqr_abs, <- sqrt_mult; [f_equal; unfold Rsqr; ring | apply Rle_0_sqr | apply sq_nonneg2].
  - unfold distance. simpl. rewrite <- sqrt_Rsqr_abs, <- sqrt_mult; [f_equal; unfold Rsqr; ring | apply Rle_0_sqr | apply sq_nonneg2].
Qed.

Lemma polar_distance : forall p a r, distance p (polar p a r) = Rabs r.
Proof.
  intros. unfold distance. simpl. rewrite <- sqrt_Rsqr_abs. f_equal. unfold Rsqr.
  pose proof (sin2_cos2 a). unfold Rsqr in H.
  replace ((px p - (px p + cos a * r)) * (px p - (px p + cos a * r)) + (py p - (py p + sin a * r)) * (py p - (py p + sin a * r)))
    with (r * r * (sin a * sin a + cos a * cos a)) by ring. rewrite H. ring.
Qed.

(** atan2 gives the polar angle. *)
Lemma atan_hyp : forall x y, 0 < x -> x * sqrt (1 + Rsqr (y / x)) = hypot x y.
Proof.
  intros x y X. unfold hypot. replace (x * x + y * y) with (x * x * (1 + Rsqr (y / x))) by (unfold Rsqr; field; lra).
  rewrite sqrt_mult; [|nra|pose proof (Rle_0_sqr (y/x)); lra]. rewrite sqrt_square by lra. reflexivity.
Qed.
Lemma hypot_pos : forall x y, x <> 0 \/ y <> 0 -> 0 < hypot x y.
Proof. intros x y H. apply sqrt_lt_R0. destruct H; nra. Qed.
Lemma hypot_opp : forall x y, hypot (- x) (- y) = hypot x y.
Proof. intros. unfold hypot. f_equal. ring. Qed.
Lemma atan2_pos : forall x y, 0 < x -> hypot x y * cos (atan (y / x)) = x /\ hypot x y * sin (atan (y / x)) = y.
Proof.
  intros x y X. rewrite <- (atan_hyp x y X), cos_atan, sin_atan.
  assert (S : 0 < sqrt (1 + Rsqr (y / x))). { apply sqrt_lt_R0. pose proof (Rle_0_sqr (y/x)). lra. }
  split; field; lra.
Qed.
Lemma atan2_polar : forall x y, hypot x y * cos (atan2 y x) = x /\ hypot x y * sin (atan2 y x) = y.
Proof.
  intros x y. unfold atan2. destruct (Rlt_dec 0 x) as [X|X]. { apply atan2_pos; auto. }
  destruct (Rlt_dec x 0) as [Y|Y].
  - destruct (atan2_pos (- x) (- y)) as [A B]; [lra|]. rewrite hypot_opp in A, B.
    replace (- y / - x) with (y / x) in A, B by (field; lra).
    destruct (Rlt_dec y 0).
    + unfold Rminus. rewrite cos_plus, sin_plus, cos_neg, sin_neg, cos_PI, sin_PI. split; lra.
    + rewrite neg_cos, neg_sin. split; lra.
  - assert (x = 0) by lra. subst x. unfold hypot.
    destruct (Rlt_dec 0 y). { rewrite cos_PI2, sin_PI2. replace (0 * 0 + y * y) with (y * y) by ring. rewrite sqrt_square by lra. split; ring. }
    destruct (Rlt_dec y 0). { rewrite cos_neg, sin_neg, cos_PI2, sin_PI2. replace (0 * 0 + y * y) with ((- y) * (- y)) by ring. rewrite sqrt_square by lra. split; ring. }
    assert (y = 0) by lra. subst. rewrite Rmult_0_l, Rplus_0_l, sqrt_0. split; ring.
Qed.
Lemma atan2_range : forall y x, - PI < atan2 y x <= PI.
Proof.
  intros. unfold atan2. pose proof (atan_bound (y / x)). pose proof PI_RGT_0.
  destruct (Rlt_dec 0 x). { lra. }
  destruct (Rlt_dec x 0).
  - destruct (Rlt_dec y 0).
    + assert (0 < y / x). { replace (y / x) with ((- y) / (- x)) by (field; lra). apply Rdiv_lt_0_compat; lra. }
      assert (0 < atan (y / x)). { rewrite <- atan_0. apply atan_increasing; auto. } lra.
    + assert (y / x <= 0). { replace (y / x) with (- (y / (- x))) by (field; lra). assert (0 <= y / - x). { apply Rmult_le_pos; [lra|]. left. apply Rinv_0_lt_compat; lra. } lra. }
      assert (atan (y / x) <= 0). { destruct H1. left. rewrite <- atan_0. apply atan_increasing; auto. rewrite H1, atan_0. lra. } lra.
  - destruct (Rlt_dec 0 y). lra. destruct (Rlt_dec y 0); lra.
Qed.
Lemma polar_angle_lemma : forall p q, polar p (angle p q) (distance p q) = q /\ angle_to p q = angle p q.
Proof.
  intros. split; [|reflexivity]. unfold angle, radians, polar, distance.
  destruct (atan2_polar (px q - px p) (py q - py p)) as [A B]. unfold hypot in A, B.
  replace ((px p - px q) * (px p - px q) + (py p - py q) * (py p - py q)) with ((px q - px p) * (px q - px p) + (py q - py p) * (py q - py p)) by ring.
  apply pt_ext; simpl; lra.
Qed.

(** De Moivre holds where the code's argument is right: positive real part. *)
Lemma cpow_polar : forall r a n, cpow (r * cos a) (r * sin a) n = (r ^ n * cos (a * INR n), r ^ n * sin (a * INR n)).
Proof.
  induction n.
  - simpl. rewrite Rmult_0_r, cos_0, sin_0. f_equal; ring.
  - cbn [cpow]. rewrite IHn. rewrite S_INR, Rmult_plus_distr_l, Rmult_1_r, cos_plus, sin_plus. simpl. f_equal; ring.
Qed.
Lemma pow_lemma : forall p n, 0 < px p -> p_pow_exact p n = Some (P (fst (cpow (px p) (py p) n)) (snd (cpow (px p) (py p) n))).
Proof.
  intros p n H. unfold p_pow_exact, argz. destruct (Req_EM_T (px p) 0); [lra|].
  destruct (atan2_pos (px p) (py p) H) as [A B]. fold (p_abs p) in A, B. 
  replace (cpow (px p) (py p) n) with (cpow (p_abs p * cos (atan (py p / px p))) (p_abs p * sin (atan (py p / px p))) n) by (rewrite A, B; reflexivity).
  rewrite cpow_polar. reflexivity.
Qed.
Lemma pow_refuted : exists p n, p_pow_exact p n = Some (P 1 0) /\ cpow (px p) (py p) n = (-1, 0).
Proof.
  exists (P (-1) 0), 1%nat. unfold p_pow_exact, argz, p_abs, hypot. simpl.
  destruct (Req_EM_T (-1) 0); [lra|]. replace (0 / -1) with 0 by lra. rewrite atan_0, ?Rmult_1_r, ?Rmult_0_l, cos_0, sin_0.
  replace (-1 * -1 + 0) with 1 by ring. rewrite sqrt_1. split; [f_equal|]; f_equal; ring.
Qed.
