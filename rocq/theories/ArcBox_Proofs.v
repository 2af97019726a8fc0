(** Proofs about the bounding box of arcs. *)
Require Import Reals ZArith List Bool Lra Lia Psatz.
Require Import Verif.Base Verif.Angle_Model Verif.Angle_Proofs Verif.Point_Model Verif.Point_Proofs Verif.Matrix_Model Verif.Curve_Model.
Require Import Verif.Arc_Model Verif.Arc_Spec Verif.Arc_Proofs.
Import ListNotations.
Open Scope R_scope.

(** * theta *)
Lemma ellipse_t_range : forall a b x, 0 < b -> - (PI / 2) <= ellipse_t a b x <= 3 * (PI / 2).
Proof.
  intros a b x B. pose proof PI_RGT_0. assert (T : - (PI / 2) <= atan2_tan a x b <= PI / 2).
  { assert (AT : forall y, - (PI / 2) < atan2 y b < PI / 2). { intros y. unfold atan2. destruct (Rlt_dec 0 b); [|lra]. pose proof (atan_bound (y / b)). lra. }
    unfold atan2_tan. destruct (Req_EM_T (cos x) 0).
    - destruct (Rlt_dec 0 a); [destruct (Rlt_dec x 0); lra|]. pose proof (AT 0). lra.
    - pose proof (AT (a * tan x)). lra. }
  unfold ellipse_t. cbv zeta. replace (tau / 2) with PI by (unfold tau; field). destruct (Rle_dec _ _); [destruct (Rlt_dec _ _)|]; lra.
Qed.
Lemma theta_spec : forall A, 0 < ary A -> exists th, theta A = th * (360 / tau) /\ 0 <= th < 2 * PI /\ cos th = cos (start_t A) /\ sin th = sin (start_t A).
Proof.
  intros A Y. pose proof PI_RGT_0. assert (SR : - (PI / 2) <= start_t A <= 3 * (PI / 2)) by (apply ellipse_t_range; auto).
  unfold theta, as_positive_degrees. set (s := start_t A) in *. unfold as_degrees. pose proof tau_pos.
  assert (E : forall x, x * 360 / tau = x * (360 / tau)) by (intros; unfold Rdiv; ring).
  assert (P360 : 0 < 360 / tau) by (apply Rdiv_lt_0_compat; lra). cbn [up360]. destruct (Rlt_dec (s * 360 / tau) 0) as [L|L].
  - assert (s < 0). { rewrite E in L. destruct (Rlt_le_dec s 0); auto. exfalso. assert (0 <= s * (360 / tau)) by (apply Rmult_le_pos; lra). lra. }
    assert (E2 : s * 360 / tau + 360 = (s + tau * 1) * (360 / tau)) by (field; lra). rewrite E2. destruct (Rlt_dec _ _) as [L2|L2].
    { exfalso. assert (0 <= (s + tau * 1) * (360 / tau)); [|lra]. apply Rmult_le_pos; unfold tau in *; lra. }
    exists (s + tau * 1). split; auto. destruct (turn_period s 1) as [C S]. split; auto. unfold tau; lra.
  - exists s. split; [apply E|]. split; auto. split; [|lra]. destruct (Rle_lt_dec 0 s); auto. exfalso. apply L. rewrite E. nra.
Qed.
Lemma proper_shift : forall A t0 t1, proper_at A t0 -> cos t1 = cos t0 -> sin t1 = sin t0 -> proper_at A t1.
Proof.
  intros A t0 t1 (X & Y & S & E) C0 S0. split; auto. split; auto. destruct (cs_add t1 t0 (a_sweep A) C0 S0) as [C1 S1].
  rewrite S, E. split; apply ellipse_at_cs; auto.
Qed.

(** * The extremes of a shifted cosine *)
Lemma half_turns : forall k : Z, exists e, (e = 1 \/ e = -1) /\ forall y, cos (y + PI * IZR k) = e * cos y.
Proof.
  assert (N : forall n, exists e, (e = 1 \/ e = -1) /\ forall y, cos (y + PI * INR n) = e * cos y).
  { induction n as [|n (e & E & IH)].
    - exists 1. split; auto. intros y. cbn [INR]. rewrite Rmult_0_r, Rplus_0_r. ring.
    - exists (- e). split; [destruct E; subst; [right|left]; lra|]. intros y. rewrite S_INR. replace (y + PI * (INR n + 1)) with (y + PI * INR n + PI) by ring. rewrite neg_cos, IH. ring. }
  intros k. destruct (Z_le_gt_dec 0 k) as [K|K].
  - destruct (N (Z.to_nat k)) as (e & E & H). exists e. split; auto. intros y. rewrite <- H, INR_IZR_INZ, Z2Nat.id; auto.
  - destruct (N (Z.to_nat (- k))) as (e & E & H). exists e. split; auto. intros y. specialize (H (y + PI * IZR k)). rewrite INR_IZR_INZ, Z2Nat.id, opp_IZR in H by lia.
    replace (y + PI * IZR k + PI * - IZR k) with y in H by ring. destruct E as [-> | ->]; lra.
Qed.
Lemma cos_peak : forall M lo hi z, lo <= z <= hi -> exists w, lo <= w <= hi /\ (w = lo \/ w = hi \/ exists k, w = PI * IZR k) /\ M * cos z <= M * cos w.
Proof.
  intros M lo hi z Z. pose proof PI_RGT_0. set (k := Int_part (z / PI)). assert (B : PI * IZR k <= z < PI * IZR k + PI).
  { pose proof (base_Int_part (z / PI)) as [B1 B2]. fold k in B1, B2. assert (z = PI * (z / PI)) by (field; lra). split; nra. }
  destruct (half_turns k) as (e & E & H1).
  assert (CD : forall x y, 0 <= x <= y -> y <= PI -> cos y <= cos x).
  { intros x y X Y. destruct (Req_dec x y) as [->|]; [lra|]. left. apply cos_decreasing_1; lra. }
  assert (G : forall x, cos x = e * cos (x - PI * IZR k)). { intros x. rewrite <- H1. f_equal. ring. }
  destruct (Rle_lt_dec 0 (M * e)) as [S|S].
  - exists (Rmax lo (PI * IZR k)). split; [split; [apply Rmax_l|apply Rmax_lub; lra]|]. split.
    { unfold Rmax. destruct (Rle_dec lo (PI * IZR k)); [right; right; eauto|left; auto]. }
    rewrite (G z), (G (Rmax _ _)), <- !Rmult_assoc. apply Rmult_le_compat_l; auto. apply CD; [|lra]. pose proof (Rmax_r lo (PI * IZR k)). assert (Rmax lo (PI * IZR k) <= z) by (apply Rmax_lub; lra). lra.
  - exists (Rmin hi (PI * IZR (k + 1))). rewrite plus_IZR. assert (Q : PI * (IZR k + 1) = PI * IZR k + PI) by ring. rewrite Q.
    assert (z <= Rmin hi (PI * IZR k + PI)) by (apply Rmin_glb; lra). split; [split; [lra|apply Rmin_l]|]. split.
    { unfold Rmin. destruct (Rle_dec hi (PI * IZR k + PI)); [right; left; auto|right; right; exists (k + 1)%Z; rewrite plus_IZR; ring]. }
    rewrite (G z), (G (Rmin _ _)), <- !Rmult_assoc. pose proof (Rmin_r hi (PI * IZR k + PI)).
    assert (C : cos (Rmin hi (PI * IZR k + PI) - PI * IZR k) <= cos (z - PI * IZR k)) by (apply CD; lra). nra.
Qed.

(** * Minimum and maximum of a list *)
Lemma fold_min_le : forall l a x, x = a \/ In x l -> fold_left Rmin l a <= x.
Proof.
  intros l. induction l as [|y l IH]; intros a x H; cbn [fold_left].
  - destruct H as [->|[]]. lra.
  - destruct H as [->|[->|H]].
    + eapply Rle_trans; [apply IH; left; reflexivity|apply Rmin_l].
    + eapply Rle_trans; [apply IH; left; reflexivity|apply Rmin_r].
    + apply IH; auto.
Qed.
Lemma fold_max_ge : forall l a x, x = a \/ In x l -> x <= fold_left Rmax l a.
Proof.
  intros l. induction l as [|y l IH]; intros a x H; cbn [fold_left].
  - destruct H as [->|[]]. lra.
  - destruct H as [->|[->|H]].
    + eapply Rle_trans; [apply Rmax_l|apply IH; left; reflexivity].
    + eapply Rle_trans; [apply Rmax_r|apply IH; left; reflexivity].
    + apply IH; auto.
Qed.
Lemma fold_min_in : forall l a, fold_left Rmin l a = a \/ In (fold_left Rmin l a) l.
Proof.
  intros l. induction l as [|y l IH]; intros a; cbn [fold_left]; auto. destruct (IH (Rmin a y)) as [E|I]; [|right; right; auto].
  rewrite E. unfold Rmin. destruct (Rle_dec a y); [left|right; left]; auto.
Qed.
Lemma fold_max_in : forall l a, fold_left Rmax l a = a \/ In (fold_left Rmax l a) l.
Proof.
  intros l. induction l as [|y l IH]; intros a; cbn [fold_left]; auto. destruct (IH (Rmax a y)) as [E|I]; [|right; right; auto].
  rewrite E. unfold Rmax. destruct (Rle_dec a y); [right; left|left]; auto.
Qed.

(** * One axis *)
Section Axis.
  Variables (A : arc) (th : R) (f : pt -> R) (ang M c : R).
  Hypotheses (TH : theta A = th * (360 / tau)) (TR : 0 <= th < 2 * PI) (SW : a_sweep A <> 0)
    (AR : - (PI / 2) <= ang <= PI / 2) (F : forall t, f (arc_point A t) = c + M * cos (th + t * a_sweep A - ang))
    (FS : f (a_start A) = f (arc_point A 0)) (FE : f (a_end A) = f (arc_point A 1)).
  Lemma inv_eq : forall k, angle_inv A ang k = (ang + PI * IZR k - th) / a_sweep A.
  Proof.
    intros k. unfold angle_inv, delta, as_degrees. rewrite TH. pose proof tau_pos. unfold tau in *. pose proof PI_RGT_0. field. lra.
  Qed.
  Lemma in_trema : forall t w k, w = PI * IZR k -> 0 <= t <= 1 -> Rabs (t * a_sweep A) <= 2 * PI -> th + t * a_sweep A - ang = w -> In (f (arc_point A t)) (trema A ang f).
  Proof.
    intros t w k W T SL E. pose proof PI_RGT_0. assert (AI : angle_inv A ang k = t) by (rewrite inv_eq, <- W, <- E; field; auto).
    assert (BD : - (2 * PI) <= t * a_sweep A <= 2 * PI). { pose proof (Rle_abs (t * a_sweep A)). pose proof (Rle_abs (- (t * a_sweep A))) as RA. rewrite Rabs_Ropp in RA. lra. }
    assert (KB : (-4 <= k <= 4)%Z).
    { assert (K1 : PI * -5 < PI * IZR k) by lra. assert (K2 : PI * IZR k < PI * 5) by lra. apply Rmult_lt_reg_l in K1; auto. apply Rmult_lt_reg_l in K2; auto. apply lt_IZR in K1. apply lt_IZR in K2. lia. }
    unfold trema. right; right. apply in_concat. exists [f (arc_point A t)]. split; [|left; auto]. apply in_map_iff. exists k. split.
    - cbv zeta. rewrite AI. destruct (Rle_dec 0 t); [|lra]. destruct (Rle_dec t 1); [|lra]. reflexivity.
    - assert (k = -4 \/ k = -3 \/ k = -2 \/ k = -1 \/ k = 0 \/ k = 1 \/ k = 2 \/ k = 3 \/ k = 4)%Z by lia. cbn [In]. intuition.
  Qed.
  Lemma trema_points : forall v, In v (trema A ang f) -> exists t, 0 <= t <= 1 /\ v = f (arc_point A t).
  Proof.
    intros v [<-|[<-|H]]; [exists 0; split; [lra|auto]|exists 1; split; [lra|auto]|]. apply in_concat in H. destruct H as (l & L & V). apply in_map_iff in L. destruct L as (k & <- & _). cbv zeta in V.
    destruct (Rle_dec 0 (angle_inv A ang k)); [|destruct V]. destruct (Rle_dec (angle_inv A ang k) 1); [|destruct V]. destruct V as [<-|[]]. eauto.
  Qed.
  (** The part of the sweep that covers every point: at most one turn. *)
  Let L := Rmin 1 (2 * PI / Rabs (a_sweep A)).
  Lemma L_range : 0 < L <= 1.
  Proof.
    pose proof PI_RGT_0. unfold L. split; [|apply Rmin_l]. apply Rmin_glb_lt; [lra|]. apply Rdiv_lt_0_compat; [lra|]. now apply Rabs_pos_lt.
  Qed.
  Lemma L_turn : L * Rabs (a_sweep A) <= 2 * PI /\ (L = 1 \/ L * a_sweep A = 2 * PI \/ L * a_sweep A = - (2 * PI)).
  Proof.
    pose proof (Rabs_pos_lt _ SW) as AP. pose proof PI_RGT_0. unfold L, Rmin. destruct (Rle_dec 1 (2 * PI / Rabs (a_sweep A))) as [H1|H1].
    - split; auto. apply (Rmult_le_compat_r (Rabs (a_sweep A))) in H1; [|lra]. replace (2 * PI / Rabs (a_sweep A) * Rabs (a_sweep A)) with (2 * PI) in H1 by (field; lra). lra.
    - split; [right; field; lra|]. right. unfold Rabs. destruct (Rcase_abs (a_sweep A)); [right|left]; field; lra.
  Qed.
  Lemma one_turn : forall t, 0 <= t <= 1 -> exists x, 0 <= x <= L /\ cos (th + x * a_sweep A - ang) = cos (th + t * a_sweep A - ang).
  Proof.
    intros t T. destruct (Rle_lt_dec t L) as [H|H]; [exists t; split; [lra|auto]|]. pose proof L_range. destruct L_turn as [_ LT].
    set (n := Int_part (t / L)). pose proof (base_Int_part (t / L)) as [B1 B2]. fold n in B1, B2. exists (t - L * IZR n).
    assert (TL : t / L * L = t) by (field; lra). split; [split; nra|].
    destruct LT as [E|[E|E]]; [lra| |].
    - replace (th + (t - L * IZR n) * a_sweep A - ang) with (th + t * a_sweep A - ang + tau * IZR (- n)); [apply turn_period|]. rewrite opp_IZR. unfold tau. rewrite <- E. ring.
    - replace (th + (t - L * IZR n) * a_sweep A - ang) with (th + t * a_sweep A - ang + tau * IZR n); [apply turn_period|]. unfold tau. replace (2 * PI) with (- (L * a_sweep A)) by lra. ring.
  Qed.
  Lemma axis_peak : forall N t, 0 <= t <= 1 -> exists v, In v (trema A ang f) /\ N * M * cos (th + t * a_sweep A - ang) <= N * (v - c).
  Proof.
    intros N t0 T0. destruct (one_turn t0 T0) as (t & T & <-). clear t0 T0. pose proof L_range as LR. destruct L_turn as [L1 L2]. set (g x := th + x * a_sweep A - ang).
    assert (HW : exists w, (w = g 0 \/ w = g L \/ exists k, w = PI * IZR k) /\ (exists x, 0 <= x <= L /\ g x = w) /\ N * M * cos (g t) <= N * M * cos w).
    { destruct (Rle_lt_dec 0 (a_sweep A)).
      - destruct (cos_peak (N * M) (g 0) (g L) (g t)) as (w & W & WC & WM); [unfold g; split; nra|]. exists w. split; auto. split; auto.
        exists ((w - g 0) / a_sweep A). split; [|unfold g; field; auto]. unfold g in *. assert (0 < a_sweep A) by lra. split; [apply Rmult_le_pos; [lra|left; apply Rinv_0_lt_compat; auto]|].
        apply (Rmult_le_reg_r (a_sweep A)); auto. unfold Rdiv. rewrite Rmult_assoc, Rinv_l by lra. lra.
      - destruct (cos_peak (N * M) (g L) (g 0) (g t)) as (w & W & WC & WM); [unfold g; split; nra|]. exists w. split; [intuition|]. split; auto.
        exists ((w - g 0) / a_sweep A). split; [|unfold g; field; auto]. unfold g in *.
        replace ((w - (th + 0 * a_sweep A - ang)) / a_sweep A) with (((th + 0 * a_sweep A - ang) - w) / - a_sweep A) by (field; auto). split; [apply Rmult_le_pos; [lra|left; apply Rinv_0_lt_compat; lra]|].
        apply (Rmult_le_reg_r (- a_sweep A)); [lra|]. unfold Rdiv. rewrite Rmult_assoc, Rinv_l by lra. lra. }
    destruct HW as (w & WC & (x & X & GX) & WM). assert (V : forall y, f (arc_point A y) - c = M * cos (g y)) by (intros y; rewrite F; unfold g; ring).
    assert (START : w = g 0 \/ cos w = cos (g 0) -> exists v, In v (trema A ang f) /\ N * M * cos (g t) <= N * (v - c)).
    { intros E. exists (f (a_start A)). split; [left; auto|]. rewrite FS, V, <- Rmult_assoc. destruct E as [<-|<-]; exact WM. }
    destruct WC as [E|[E|[k K]]].
    - auto.
    - destruct L2 as [L2|L2].
      + exists (f (a_end A)). split; [right; left; auto|]. rewrite FE, V, <- Rmult_assoc. rewrite L2 in E. rewrite <- E. exact WM.
      + apply START. right. rewrite E. unfold g. destruct L2 as [-> | ->].
        * replace (th + 2 * PI - ang) with (th + 0 * a_sweep A - ang + tau * IZR 1) by (unfold tau; ring). apply turn_period.
        * replace (th + - (2 * PI) - ang) with (th + 0 * a_sweep A - ang + tau * IZR (-1)) by (unfold tau; ring). apply turn_period.
    - exists (f (arc_point A x)). split; [eapply in_trema; eauto|].
      + lra.
      + assert (XB : Rabs (x * a_sweep A) <= 2 * PI). { rewrite Rabs_mult, (Rabs_right x) by lra. eapply Rle_trans; [|exact L1]. apply Rmult_le_compat_r; [apply Rabs_pos|lra]. } exact XB.
      + rewrite V, GX, <- Rmult_assoc. exact WM.
  Qed.
  Lemma axis_bounds : forall t, 0 <= t <= 1 -> fold_left Rmin (trema A ang f) (f (a_start A)) <= f (arc_point A t) <= fold_left Rmax (trema A ang f) (f (a_start A)).
  Proof.
    intros t T. rewrite F. split.
    - destruct (axis_peak (-1) t T) as (v & I & H). eapply Rle_trans; [apply fold_min_le; right; exact I|]. lra.
    - destruct (axis_peak 1 t T) as (v & I & H). eapply Rle_trans; [|apply fold_max_ge; right; exact I]. lra.
  Qed.
  Lemma axis_touch : (exists t, 0 <= t <= 1 /\ fold_left Rmin (trema A ang f) (f (a_start A)) = f (arc_point A t)) /\ (exists t, 0 <= t <= 1 /\ fold_left Rmax (trema A ang f) (f (a_start A)) = f (arc_point A t)).
  Proof.
    split; [destruct (fold_min_in (trema A ang f) (f (a_start A))) as [E|I]|destruct (fold_max_in (trema A ang f) (f (a_start A))) as [E|I]];
      try (exists 0; split; [lra|rewrite E; auto]; fail); apply trema_points in I; auto.
  Qed.
End Axis.

(** * Both axes *)
(** A cosine and a sine together are one cosine, shifted by an angle with the given tangent. *)
Lemma harmonic : forall p q ang, p * sin ang = q * cos ang -> forall z, p * cos z + q * sin z = (p * cos ang + q * sin ang) * cos (z - ang).
Proof.
  intros p q ang H z. rewrite cos_minus. pose proof (cs1 ang) as CS.
  transitivity ((cos ang * cos ang + sin ang * sin ang) * (p * cos z + q * sin z) + (p * sin ang - q * cos ang) * (cos ang * sin z - sin ang * cos z)).
  - rewrite CS, H. ring.
  - transitivity ((p * cos ang + q * sin ang) * (cos z * cos ang + sin z * sin ang) + 0 * (p * sin ang - q * cos ang)); [|ring]. ring.
Qed.
Lemma extreme_x_spec : forall A, 0 < arx A -> let a := extreme_x A in - (PI / 2) <= a <= PI / 2 /\
  arx A * cos (rotation A) * sin a = - (ary A * sin (rotation A)) * cos a.
Proof.
  intros A X a. pose proof PI_RGT_0. assert (T4 : tau / 4 = PI / 2) by (unfold tau; field). unfold a, extreme_x. cbv zeta. destruct (Req_EM_T (cos (rotation A)) 0) as [E|E].
  - rewrite T4, E, cos_PI2. split; [lra|ring].
  - destruct (Req_EM_T (sin (rotation A)) 0) as [E2|E2]; [rewrite E2, sin_0; split; [lra|ring]|].
    pose proof (atan_bound (- (ary A / arx A) * tan (rotation A))) as B. set (y := - (ary A / arx A) * tan (rotation A)) in *. split; [lra|].
    assert (cos (atan y) <> 0) by (pose proof (cos_gt_0 (atan y)); lra). assert (TS : sin (atan y) = y * cos (atan y)). { transitivity (tan (atan y) * cos (atan y)); [unfold tan; field; auto|now rewrite tan_atan]. }
    rewrite TS. unfold y, tan. field. lra.
Qed.
Lemma extreme_y_spec : forall A, 0 < arx A -> let a := extreme_y A in - (PI / 2) <= a <= PI / 2 /\
  arx A * sin (rotation A) * sin a = ary A * cos (rotation A) * cos a.
Proof.
  intros A X a. pose proof PI_RGT_0. assert (T4 : tau / 4 = PI / 2) by (unfold tau; field). unfold a, extreme_y. cbv zeta. destruct (Req_EM_T (cos (rotation A)) 0) as [E|E].
  - rewrite E, sin_0. split; [lra|ring].
  - destruct (Req_EM_T (sin (rotation A)) 0) as [E2|E2]; [rewrite T4, E2, cos_PI2; split; [lra|ring]|].
    set (y := ary A / arx A / tan (rotation A)). pose proof (atan_bound y) as B. split; [lra|].
    assert (cos (atan y) <> 0) by (pose proof (cos_gt_0 (atan y)); lra). assert (TS : sin (atan y) = y * cos (atan y)). { transitivity (tan (atan y) * cos (atan y)); [unfold tan; field; auto|now rewrite tan_atan]. }
    rewrite TS. unfold y, tan. field. lra.
Qed.
Lemma arc_bbox_spec : forall A t0, proper_at A t0 -> a_sweep A <> 0 ->
  let '(x0, y0, x1, y1) := arc_bbox A in
  (forall t, 0 <= t <= 1 -> x0 <= px (arc_point A t) <= x1 /\ y0 <= py (arc_point A t) <= y1) /\
  (exists t, 0 <= t <= 1 /\ x0 = px (arc_point A t)) /\ (exists t, 0 <= t <= 1 /\ x1 = px (arc_point A t)) /\
  (exists t, 0 <= t <= 1 /\ y0 = py (arc_point A t)) /\ (exists t, 0 <= t <= 1 /\ y1 = py (arc_point A t)).
Proof.
  intros A t0 PA SW. unfold arc_bbox. destruct (Req_EM_T (a_sweep A) 0); [contradiction|]. pose proof PA as (X & Y & _).
  destruct (theta_spec A Y) as (th & TH & TR & C & S). destruct (start_t_proper A t0 PA) as [C0 S0].
  assert (PT : proper_at A th) by (apply (proper_shift A t0); auto; congruence). pose proof (arc_runs_own A th PT) as RU.
  assert (FS : a_start A = arc_point A 0). { rewrite RU. destruct PT as (_ & _ & -> & _). f_equal. ring. }
  assert (FE : a_end A = arc_point A 1). { rewrite RU. destruct PT as (_ & _ & _ & ->). f_equal. ring. }
  destruct (extreme_x_spec A X) as [XR XE]. destruct (extreme_y_spec A X) as [YR YE].
  set (Mx := arx A * cos (rotation A) * cos (extreme_x A) + - (ary A * sin (rotation A)) * sin (extreme_x A)).
  set (My := arx A * sin (rotation A) * cos (extreme_y A) + ary A * cos (rotation A) * sin (extreme_y A)).
  assert (FX : forall t, px (arc_point A t) = px (a_center A) + Mx * cos (th + t * a_sweep A - extreme_x A)).
  { intros t. rewrite RU. unfold Mx. rewrite <- (harmonic _ _ _ XE). unfold ellipse_at, frame. cbn [px py]. ring. }
  assert (FY : forall t, py (arc_point A t) = py (a_center A) + My * cos (th + t * a_sweep A - extreme_y A)).
  { intros t. rewrite RU. unfold My. rewrite <- (harmonic _ _ _ YE). unfold ellipse_at, frame. cbn [px py]. ring. }
  pose proof (axis_bounds A th px (extreme_x A) Mx (px (a_center A)) TH TR SW XR FX (f_equal px FS) (f_equal px FE)) as BX.
  pose proof (axis_bounds A th py (extreme_y A) My (py (a_center A)) TH TR SW YR FY (f_equal py FS) (f_equal py FE)) as BY.
  destruct (axis_touch A px (extreme_x A) (f_equal px FS) (f_equal px FE)) as [TX1 TX2]. destruct (axis_touch A py (extreme_y A) (f_equal py FS) (f_equal py FE)) as [TY1 TY2].
  split; [intros t T; split; [apply BX|apply BY]; auto|]. auto.
Qed.
