(** Theorems about the distance between arcs and the curves made of them: C57. *)
Require Import Reals ZArith List Bool Lra Lia Psatz.
Require Import Verif.Base Verif.Angle_Model Verif.Angle_Proofs Verif.Point_Model Verif.Point_Proofs Verif.Matrix_Model Verif.Curve_Model Verif.Curve_Spec.
Require Import Verif.Arc_Model Verif.Arc_Spec Verif.Arc_Proofs Verif.ArcCurves_Proofs Verif.ArcClose_Spec Verif.ArcClose_Proofs Verif.Arc_Thms.
Import ListNotations.
Open Scope R_scope.

(** The parameters of a piece: its middle, half its sweep, and that of a point of the arc in it. *)
Lemma piece : forall (sw : R) n i t0, (0 < n)%nat -> let h := sw / INR n / 2 in let m := t0 + (INR i + / 2) * (sw / INR n) in
  t0 + INR i / INR n * sw = m + - h /\ t0 + INR (S i) / INR n * sw = m + h /\
  forall x, INR i / INR n <= x <= INR (S i) / INR n -> exists p, - Rabs h <= p <= Rabs h /\ t0 + x * sw = m + p.
Proof.
  intros sw n i t0 N h m. assert (NP : 0 < INR n) by (apply lt_0_INR; auto). rewrite S_INR. split; [unfold m, h; field; lra|]. split; [unfold m, h; field; lra|].
  intros x X. exists ((x * INR n - INR i - / 2) * (sw / INR n)). split; [|unfold m; field; lra].
  assert (B : - / 2 <= x * INR n - INR i - / 2 <= / 2).
  { assert (INR i <= x * INR n) by (apply Rmult_le_reg_r with (/ INR n); [apply Rinv_0_lt_compat; auto|]; rewrite Rmult_assoc, Rinv_r by lra; rewrite Rmult_1_r; apply X).
    assert (x * INR n <= INR i + 1) by (apply Rmult_le_reg_r with (/ INR n); [apply Rinv_0_lt_compat; auto|]; rewrite Rmult_assoc, Rinv_r by lra; rewrite Rmult_1_r; apply X). lra. }
  set (y := x * INR n - INR i - / 2) in *. unfold h. set (z := sw / INR n). assert (Rabs (y * z) <= Rabs (z / 2)).
  { unfold Rdiv. rewrite !Rabs_mult, (Rabs_right (/ 2)) by lra. assert (Rabs y <= / 2) by (apply Rabs_le; lra). pose proof (Rabs_pos z). nra. }
  pose proof (RRle_abs (y * z)). pose proof (RRle_abs (- (y * z))) as K. rewrite Rabs_Ropp in K. lra.
Qed.
Lemma half_turn : forall sw n, (0 < n)%nat -> Rabs sw < INR n * PI -> - (PI / 2) < sw / INR n / 2 < PI / 2.
Proof.
  intros sw n N B. assert (NP : 0 < INR n) by (apply lt_0_INR; auto). assert (E : Rabs (sw / INR n) < PI). { unfold Rdiv. rewrite Rabs_mult, Rabs_inv, (Rabs_right (INR n)) by lra. apply Rmult_lt_reg_r with (INR n); auto. rewrite Rmult_assoc, Rinv_l by lra. lra. }
  apply Rabs_def2 in E. lra.
Qed.

(** Every cubic piece of less than half a turn stays inside the ellipse, and no further from it than the sixth power of
    the sine of half the angle tells; every point of the arc's piece is as close to the curve. *)
Theorem arc_cubics_close : forall A t0 n i g, proper_at A t0 -> Rabs (a_sweep A) < INR n * PI -> nth_error (as_cubic_curves_n A n) i = Some g ->
  let s := sin (a_sweep A / INR n / 2) in let e := s ^ 6 / (4 * (4 - 3 * s ^ 2) ^ 2) in
  (forall np u, 0 <= u <= 1 -> exists k, at_size (a_center A) (arx A) (ary A) (rotation A) (point np g u) k /\ 1 - e <= k <= 1) /\
  (forall x, INR i / INR n <= x <= INR (S i) / INR n -> exists u, 0 <= u <= 1 /\ forall np, dist (arc_point A x) (point np g u) <= e * Rmax (arx A) (ary A)).
Proof.
  intros A t0 n i g PA SW NT s e. assert (I : (i < n)%nat). { assert (Q : nth_error (as_cubic_curves_n A n) i <> None) by congruence. apply nth_error_Some in Q. unfold as_cubic_curves_n in Q. rewrite cubic_slices_length in Q. exact Q. }
  assert (N0 : (0 < n)%nat) by lia. destruct (arc_cubics_touch A t0 n i PA I) as (al & NE & AL & _). rewrite NT in NE. injection NE as ->.
  pose proof (arc_runs_own A t0 PA) as RU. destruct (piece (a_sweep A) n i t0 N0) as (M0 & M1 & MX). set (h := a_sweep A / INR n / 2) in *. set (m := t0 + (INR i + / 2) * (a_sweep A / INR n)) in *.
  pose proof (half_turn _ _ N0 SW) as HT. fold h in HT. pose proof PA as (X & Y & _).
  assert (AE : al = sin (2 * h) * (sqrt (4 + 3 * tan h ^ 2) - 1) / 3) by (rewrite AL; fold h; replace (2 * h) with (a_sweep A / INR n) by (unfold h; field; apply not_0_INR; lia); reflexivity).
  assert (PT : forall np u, point np (GCubic (arc_point A (INR i / INR n)) (along (arc_point A (INR i / INR n)) (ellipse_vel (arx A) (ary A) (rotation A) (t0 + INR i / INR n * a_sweep A)) al)
     (along (arc_point A (INR (S i) / INR n)) (ellipse_vel (arx A) (ary A) (rotation A) (t0 + INR (S i) / INR n * a_sweep A)) (- al)) (arc_point A (INR (S i) / INR n))) u = local (a_center A) (arx A) (ary A) (rotation A) m (bx h u) (by_ h u)).
  { intros np u. cbn [point]. rewrite !RU, M0, M1, AE. exact (cubic_local h (a_center A) (arx A) (ary A) (rotation A) m u). }
  split.
  - intros np u U. rewrite PT. pose proof (level_range h HT u U) as LR. pose proof (slack_lt1 h HT) as SL. unfold slack in LR, SL. fold s e in LR, SL. set (l := bx h u * bx h u + by_ h u * by_ h u) in *.
    assert (LP : 0 < l) by lra. exists (sqrt l). pose proof (sqrt_lt_R0 l LP). assert (SQ : sqrt l * sqrt l = l) by (apply sqrt_sqrt; lra). split; [apply local_size; auto|]. split; nra.
  - intros x XI. destruct (MX x XI) as (p & HP & TE). destruct (direction h HT p HP) as (u & l & U & L & LS & BX & BY). exists u. split; auto. intros np. rewrite PT, BX, BY, RU, TE, local_at.
    unfold slack in LS. fold s e in LS. eapply Rle_trans; [apply local_dist; auto; apply cs1|]. apply Rmult_le_compat_r; [apply Rle_trans with (arx A); [lra|apply Rmax_l]|]. rewrite Rabs_right by lra. nra.
Qed.
Example arc_cubics_close_ex : proper_at quarter 0 /\ Rabs (a_sweep quarter) < INR 1 * PI.
Proof. pose proof PI_RGT_0. split; [exact quarter_proper|]. cbn [a_sweep quarter INR]. rewrite Rabs_right; lra. Qed.
Print Assumptions arc_cubics_close.

(** Every quadratic piece of up to about 69 degrees stays outside the ellipse. *)
Theorem arc_quads_close : forall A t0 n i g, proper_at A t0 -> Rabs (a_sweep A) < INR n * PI -> nth_error (as_quad_curves_n A n) i = Some g ->
  let c := cos (a_sweep A / INR n / 2) in let e := (2 * c - 1) * (1 - c) / 6 in 3 <= 2 * c * c + 2 * c ->
  (forall np u, 0 <= u <= 1 -> exists k, at_size (a_center A) (arx A) (ary A) (rotation A) (point np g u) k /\ 1 <= k <= 1 + e) /\
  (forall x, INR i / INR n <= x <= INR (S i) / INR n -> exists u, 0 <= u <= 1 /\ forall np, dist (arc_point A x) (point np g u) <= e * Rmax (arx A) (ary A)).
Proof.
  intros A t0 n i g PA SW NT c e CN. assert (I : (i < n)%nat). { assert (Q : nth_error (as_quad_curves_n A n) i <> None) by congruence. apply nth_error_Some in Q. unfold as_quad_curves_n in Q. rewrite quad_slices_length in Q. exact Q. }
  assert (N0 : (0 < n)%nat) by lia. destruct (arc_quads_meet A t0 n i PA I) as (k & _ & KE & NE). rewrite NT in NE. injection NE as ->.
  pose proof (arc_runs_own A t0 PA) as RU. destruct (piece (a_sweep A) n i t0 N0) as (M0 & M1 & MX). set (h := a_sweep A / INR n / 2) in *. set (m := t0 + (INR i + / 2) * (a_sweep A / INR n)) in *.
  pose proof (half_turn _ _ N0 SW) as HT. fold h in HT. pose proof PA as (X & Y & _).
  assert (KH : k = (4 - cos (2 * h)) / 3) by (rewrite KE; replace (2 * h) with (a_sweep A / INR n) by (unfold h; field; apply not_0_INR; lia); reflexivity).
  assert (PT : forall np u, point np (GQuad (arc_point A (INR i / INR n)) (towards (a_center A) (arc_point A ((INR i + / 2) / INR n)) k) (arc_point A ((INR i + 1) / INR n))) u = local (a_center A) (arx A) (ary A) (rotation A) m (qx h u) (qy h u)).
  { intros np u. cbn [point]. rewrite <- (S_INR i), !RU, M0, M1. replace (t0 + (INR i + / 2) / INR n * a_sweep A) with m by (unfold m; field; apply not_0_INR; lia).
    rewrite <- (quad_local h (a_center A) (arx A) (ary A) (rotation A) m u). cbv zeta. rewrite <- KH. f_equal. unfold towards, ellipse_at, frame. apply pt_ext; cbn [px py]; ring. }
  split.
  - intros np u U. rewrite PT. pose proof (quad_level h HT CN u U) as LR. unfold bulge in LR. fold c e in LR. pose proof (bulge_pos h HT CN) as BP. unfold bulge in BP. fold c e in BP. set (l := qx h u * qx h u + qy h u * qy h u) in *.
    assert (LP : 0 < l) by lra. exists (sqrt l). pose proof (sqrt_lt_R0 l LP). assert (SQ : sqrt l * sqrt l = l) by (apply sqrt_sqrt; lra). split; [apply local_size; auto|]. split; nra.
  - intros x XI. destruct (MX x XI) as (p & HP & TE). destruct (quad_direction h HT CN p HP) as (u & l & U & L & BX & BY). unfold bulge in L. fold c e in L. exists u. split; auto. intros np. rewrite PT, BX, BY, RU, TE, local_at.
    eapply Rle_trans; [apply local_dist; auto; apply cs1|]. apply Rmult_le_compat_r; [apply Rle_trans with (arx A); [lra|apply Rmax_l]|]. rewrite Rabs_left1; lra.
Qed.
Lemma quarter_half : cos (a_sweep quarter / INR 2 / 2) * cos (a_sweep quarter / INR 2 / 2) = (1 + / sqrt 2) / 2.
Proof. replace (a_sweep quarter / INR 2 / 2) with (PI / 8) by (cbn [a_sweep quarter INR]; field). pose proof (cos_2a_cos (PI / 8)) as E. replace (2 * (PI / 8)) with (PI / 4) in E by field. rewrite cos_PI4 in E. unfold Rdiv in E. lra. Qed.
Example arc_quads_close_ex : proper_at quarter 0 /\ Rabs (a_sweep quarter) < INR 2 * PI /\ let c := cos (a_sweep quarter / INR 2 / 2) in 3 <= 2 * c * c + 2 * c.
Proof.
  pose proof PI_RGT_0. split; [exact quarter_proper|]. split; [cbn [a_sweep quarter INR]; rewrite Rabs_right; lra|]. intros c. pose proof quarter_half as Q. fold c in Q.
  assert (S2 : sqrt 2 * sqrt 2 = 2) by (apply sqrt_sqrt; lra). assert (S0 : 0 < sqrt 2) by (apply sqrt_lt_R0; lra). assert (S1 : sqrt 2 <= 3 / 2) by nra. assert (2 / 3 <= / sqrt 2) by (apply Rmult_le_reg_r with (sqrt 2); auto; rewrite Rinv_l by lra; lra).
  assert (0 < c). { unfold c. replace (a_sweep quarter / INR 2 / 2) with (PI / 8) by (cbn [a_sweep quarter INR]; field). apply cos_gt_0; lra. } assert (9 / 10 <= c) by nra. nra.
Qed.
Print Assumptions arc_quads_close.

(** The default pieces. *)
Lemma fine : forall sw n, (0 < n)%nat -> Rabs sw <= INR n * (PI / 6) -> let h := sw / INR n / 2 in
  0 < cos h <= 1 /\ 933 / 1000 <= cos h * cos h /\ sin h ^ 2 <= 67 / 1000.
Proof.
  intros sw n N B h. pose proof PI_RGT_0. assert (NP : 0 < INR n) by (apply lt_0_INR; auto).
  assert (HB : - (PI / 12) <= h <= PI / 12). { assert (E : Rabs (sw / INR n) <= PI / 6). { unfold Rdiv at 1. rewrite Rabs_mult, Rabs_inv, (Rabs_right (INR n)) by lra. apply Rmult_le_reg_r with (INR n); auto. rewrite Rmult_assoc, Rinv_l by lra. lra. }
    unfold h. pose proof (RRle_abs (sw / INR n)). pose proof (RRle_abs (- (sw / INR n))) as K. rewrite Rabs_Ropp in K. lra. }
  assert (C0 : 0 < cos h) by (apply cos_gt_0; lra). pose proof (COS_bound h) as CB.
  assert (C2 : cos (PI / 6) <= cos (2 * h)). { destruct (Rle_dec 0 h); [|rewrite <- (cos_neg (2 * h))]; apply cos_decr_1; lra. }
  rewrite cos_PI6 in C2. rewrite cos_2a_cos in C2. assert (S3 : sqrt 3 * sqrt 3 = 3) by (apply sqrt_sqrt; lra). assert (0 < sqrt 3) by (apply sqrt_lt_R0; lra). assert (17320 / 10000 <= sqrt 3) by nra.
  pose proof (cs1 h). split; [lra|]. assert (K : 933 / 1000 <= cos h * cos h) by lra. split; auto. replace (sin h ^ 2) with (sin h * sin h) by ring. lra.
Qed.
Lemma slot : forall n x, (0 < n)%nat -> 0 <= x <= 1 -> exists i, (i < n)%nat /\ INR i / INR n <= x <= INR (S i) / INR n.
Proof.
  intros n x N X. assert (NP : 0 < INR n) by (apply lt_0_INR; auto). assert (forall k, x <= INR (S k) / INR n -> exists i, (i <= k)%nat /\ INR i / INR n <= x <= INR (S i) / INR n).
  { induction k as [|k IH]; intros B.
    - exists 0%nat. split; auto. split; auto. cbn [INR]. unfold Rdiv. lra.
    - destruct (Rle_lt_dec x (INR (S k) / INR n)) as [L|L]; [destruct (IH L) as (i & I & J); exists i; split; auto|]. exists (S k). split; auto. split; auto. lra. }
  destruct n as [|n]; [lia|]. destruct (H n) as (i & I & J). { unfold Rdiv. rewrite Rinv_r by lra. apply X. } exists i. split; [lia|auto].
Qed.
(** The default cubic curves are within 1/190000 of the arc, relative to the radii. *)
Theorem arc_cubics_default_close : forall A t0, proper_at A t0 -> a_sweep A <> 0 ->
  (forall g np u, In g (as_cubic_curves A) -> 0 <= u <= 1 -> exists k, at_size (a_center A) (arx A) (ary A) (rotation A) (point np g u) k /\ 1 - 1 / 190000 <= k <= 1) /\
  (forall x, 0 <= x <= 1 -> exists g u, In g (as_cubic_curves A) /\ 0 <= u <= 1 /\ forall np, dist (arc_point A x) (point np g u) <= 1 / 190000 * Rmax (arx A) (ary A)).
Proof.
  intros A t0 PA SW. destruct (required_spec A) as (RZ & RB & _). pose proof PI_RGT_0. unfold as_cubic_curves. set (n := arc_required A) in *.
  assert (N0 : (0 < n)%nat) by (destruct n; [exfalso; apply SW, RZ; auto|lia]). assert (NP : 0 < INR n) by (apply lt_0_INR; auto). assert (B : Rabs (a_sweep A) < INR n * PI) by nra.
  destruct (fine _ n N0 RB) as (_ & _ & S2). set (h := a_sweep A / INR n / 2) in *.
  assert (E : sin h ^ 6 / (4 * (4 - 3 * sin h ^ 2) ^ 2) <= 1 / 190000).
  { replace (sin h ^ 6) with (sin h ^ 2 * (sin h ^ 2 * sin h ^ 2)) by ring. assert (P0 : 0 <= sin h ^ 2) by (rewrite <- Rsqr_pow2; apply Rle_0_sqr). set (z := sin h ^ 2) in *.
    assert (D : 3799 / 1000 * (3799 / 1000) <= (4 - 3 * z) ^ 2) by (simpl; nra). assert (z * z <= 67 / 1000 * (67 / 1000)) by nra. assert (z * (z * z) <= 67 / 1000 * (67 / 1000 * (67 / 1000))) by nra.
    apply Rmult_le_reg_r with (4 * (4 - 3 * z) ^ 2); [lra|]. replace (z * (z * z) / (4 * (4 - 3 * z) ^ 2) * (4 * (4 - 3 * z) ^ 2)) with (z * (z * z)) by (field; lra). lra. }
  split.
  - intros g np u IN U. apply In_nth_error in IN. destruct IN as (i & IN). destruct (arc_cubics_close A t0 n i g PA B IN) as [H1 _]. destruct (H1 np u U) as (k & K1 & K2). fold h in K2. exists k. split; auto. lra.
  - intros x X. destruct (slot n x N0 X) as (i & I & XI). destruct (nth_error (as_cubic_curves_n A n) i) as [g|] eqn:NT.
    + destruct (arc_cubics_close A t0 n i g PA B NT) as [_ H2]. destruct (H2 x XI) as (u & U & D). exists g, u. split; [now apply nth_error_In with i|]. split; auto. intros np. specialize (D np). fold h in D. eapply Rle_trans; [exact D|]. apply Rmult_le_compat_r; auto. destruct PA as (P1 & _). apply Rle_trans with (arx A); [lra|apply Rmax_l].
    + apply nth_error_None in NT. unfold as_cubic_curves_n in NT. rewrite cubic_slices_length in NT. lia.
Qed.
Example arc_cubics_default_close_ex : proper_at quarter 0 /\ a_sweep quarter <> 0. Proof. pose proof PI_RGT_0. split; [exact quarter_proper|]. cbn. lra. Qed.
Print Assumptions arc_cubics_default_close.
(** The default quadratic curves only within 1/188. *)
Theorem arc_quads_default_close : forall A t0, proper_at A t0 -> a_sweep A <> 0 ->
  (forall g np u, In g (as_quad_curves A) -> 0 <= u <= 1 -> exists k, at_size (a_center A) (arx A) (ary A) (rotation A) (point np g u) k /\ 1 <= k <= 1 + 1 / 188) /\
  (forall x, 0 <= x <= 1 -> exists g u, In g (as_quad_curves A) /\ 0 <= u <= 1 /\ forall np, dist (arc_point A x) (point np g u) <= 1 / 188 * Rmax (arx A) (ary A)).
Proof.
  intros A t0 PA SW. destruct (required_spec A) as (RZ & RB & _). pose proof PI_RGT_0. unfold as_quad_curves. set (n := arc_required A) in *.
  assert (N0 : (0 < n)%nat) by (destruct n; [exfalso; apply SW, RZ; auto|lia]). assert (NP : 0 < INR n) by (apply lt_0_INR; auto). assert (B : Rabs (a_sweep A) < INR n * PI) by nra.
  destruct (fine _ n N0 RB) as (C0 & C2 & _). set (h := a_sweep A / INR n / 2) in *. assert (C1 : 9659 / 10000 <= cos h) by nra.
  assert (E : (2 * cos h - 1) * (1 - cos h) / 6 <= 1 / 188) by nra. assert (CN : 3 <= 2 * cos h * cos h + 2 * cos h) by nra.
  split.
  - intros g np u IN U. apply In_nth_error in IN. destruct IN as (i & IN). destruct (arc_quads_close A t0 n i g PA B IN) as [H1 _]; [exact CN|]. destruct (H1 np u U) as (k & K1 & K2). fold h in K2. exists k. split; auto. lra.
  - intros x X. destruct (slot n x N0 X) as (i & I & XI). destruct (nth_error (as_quad_curves_n A n) i) as [g|] eqn:NT.
    + destruct (arc_quads_close A t0 n i g PA B NT) as [_ H2]; [exact CN|]. destruct (H2 x XI) as (u & U & D). exists g, u. split; [now apply nth_error_In with i|]. split; auto. intros np. specialize (D np). fold h in D. eapply Rle_trans; [exact D|]. apply Rmult_le_compat_r; auto. destruct PA as (P1 & _). apply Rle_trans with (arx A); [lra|apply Rmax_l].
    + apply nth_error_None in NT. unfold as_quad_curves_n in NT. rewrite quad_slices_length in NT. lia.
Qed.
Example arc_quads_default_close_ex : proper_at quarter 0 /\ a_sweep quarter <> 0. Proof. pose proof PI_RGT_0. split; [exact quarter_proper|]. cbn. lra. Qed.
Print Assumptions arc_quads_default_close.
