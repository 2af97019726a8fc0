(** Proofs about arcs solved from points. *)
Require Import Reals ZArith List Bool Lra Lia Psatz.
Require Import Verif.Base Verif.Angle_Model Verif.Angle_Proofs Verif.Point_Model Verif.Point_Proofs Verif.Matrix_Model Verif.Curve_Model.
Require Import Verif.Arc_Model Verif.Arc_Spec Verif.Arc_Proofs Verif.ArcBox_Proofs.
Import ListNotations.
Open Scope R_scope.

Definition sqd (p q : pt) : R := (px p - px q) * (px p - px q) + (py p - py q) * (py p - py q).
Lemma sum_sq_zero : forall x y, x * x + y * y = 0 -> x = 0 /\ y = 0.
Proof. intros x y H. pose proof (sq_pos x). pose proof (sq_pos y). split; apply Rsqr_0_uniq; unfold Rsqr; lra. Qed.
Lemma orientation_2 : forall p q r, Z.eqb (orientation p q r) 2 = true <-> 0 < turn p q r.
Proof.
  intros p q r. unfold orientation, turn. cbv zeta. set (v := (py q - py p) * (px r - px q) - (px q - px p) * (py r - py q)).
  destruct (Req_EM_T v 0); [|destruct (Rlt_dec 0 v)]; cbn; unfold v in *; split; intros; try discriminate; auto; lra.
Qed.
Lemma orientation_1 : forall p q r, Z.eqb (orientation p q r) 1 = true <-> turn p q r < 0.
Proof.
  intros p q r. unfold orientation, turn. cbv zeta. set (v := (py q - py p) * (px r - px q) - (px q - px p) * (py r - py q)).
  destruct (Req_EM_T v 0); [|destruct (Rlt_dec 0 v)]; cbn; unfold v in *; split; intros; try discriminate; auto; lra.
Qed.

(** * A circle from one point to another *)
Lemma circle_frame : forall s e c r sw, 0 < r -> let A := mkArc s e c (P (px c + r) (py c)) (P (px c) (py c + r)) sw in
  arx A = r /\ ary A = r /\ cos (rotation A) = 1 /\ sin (rotation A) = 0.
Proof.
  intros s e c r sw R0 A. assert (E1 : a_prx A = polar c 0 r) by (unfold polar; cbn; rewrite cos_0, sin_0; f_equal; ring).
  assert (E2 : a_pry A = polar c (PI / 2) r) by (unfold polar; cbn; rewrite cos_PI2, sin_PI2; f_equal; ring).
  unfold arx, ary, rotation. rewrite E1, E2. change (a_center A) with c. rewrite !dist_polar by auto. destruct (angle_polar c 0 r R0) as [-> ->]. rewrite cos_0, sin_0. auto.
Qed.
Lemma circle_point : forall s e c r sw p, 0 < r -> sqd c p = r * r -> let A := mkArc s e c (P (px c + r) (py c)) (P (px c) (py c + r)) sw in
  exists t, p = point_at_t A t.
Proof.
  intros s e c r sw p R0 D A. destruct (circle_frame s e c r sw R0) as (X & Y & RC & RS). fold A in X, Y, RC, RS.
  destruct (unit_angle ((px p - px c) / r) ((py p - py c) / r)) as (t & T1 & T2).
  { unfold sqd in D. transitivity (((px c - px p) * (px c - px p) + (py c - py p) * (py c - py p)) / (r * r)); [field; lra|]. rewrite D. field. lra. }
  exists t. unfold point_at_t. rewrite X, Y, RC, RS, T1, T2. change (a_center A) with c. apply pt_ext; cbn [px py]; field; lra.
Qed.
Lemma around_proper : forall s e c r cw, 0 < r -> sqd c s = r * r -> sqd c e = r * r -> s <> e ->
  let A := around s e c (P (px c + r) (py c)) (P (px c) (py c + r)) cw in
  exists t0, proper_at A t0 /\ a_start A = s /\ a_end A = e /\ a_center A = c /\ arx A = r /\ ary A = r /\ cos (rotation A) = 1 /\ sin (rotation A) = 0 /\
    (if cw then 0 < a_sweep A < 2 * PI else - (2 * PI) < a_sweep A < 0).
Proof.
  intros s e c r cw R0 DS DE NE. cbv zeta. unfold around. cbv zeta. set (A0 := mkArc s e c (P (px c + r) (py c)) (P (px c) (py c + r)) 0).
  destruct (circle_frame s e c r 0 R0) as (X & Y & RC & RS). fold A0 in X, Y, RC, RS.
  destruct (circle_point s e c r 0 s R0 DS) as (ts & TS). destruct (circle_point s e c r 0 e R0 DE) as (te & TE). fold A0 in TS, TE.
  assert (XP : 0 < arx A0) by lra. assert (YP : 0 < ary A0) by lra.
  destruct (start_t_own A0 ts XP YP TS) as [SC SS]. destruct (end_t_own A0 te XP YP TE) as [EC ES].
  pose proof (ellipse_t_range (arx A0) (ary A0) (angle_at_point A0 (point_at_angle A0 (angle_at_point A0 (a_start A0))) - rotation A0) YP) as SR. change (ellipse_t _ _ _) with (start_t A0) in SR.
  pose proof (ellipse_t_range (arx A0) (ary A0) (angle_at_point A0 (point_at_angle A0 (angle_at_point A0 (a_end A0))) - rotation A0) YP) as ER. change (ellipse_t _ _ _) with (end_t A0) in ER.
  set (t0 := start_t A0) in *. set (t1 := end_t A0) in *. pose proof PI_RGT_0 as PP.
  match goal with |- context [mkArc s e c _ _ ?x] => set (sw := x) end. set (A := mkArc _ _ _ _ _ sw).
  destruct (circle_frame s e c r sw R0) as (X' & Y' & RC' & RS'). fold A in X', Y', RC', RS'.
  assert (SW : exists k, sw = t1 - t0 + tau * IZR k).
  { unfold sw. destruct cw; [destruct (Rlt_dec (t1 - t0) 0)|destruct (Rlt_dec 0 (t1 - t0))]; [exists 1%Z|exists 0%Z|exists (-1)%Z|exists 0%Z]; ring. }
  assert (EQ : cos (t0 + sw) = cos t1 /\ sin (t0 + sw) = sin t1). { destruct SW as (k & ->). replace (t0 + (t1 - t0 + tau * IZR k)) with (t1 + tau * IZR k) by ring. apply turn_period. }
  destruct EQ as [EQ1 EQ2].
  assert (PS : forall t, point_at_t A t = point_at_t A0 t) by reflexivity.
  assert (NZ : forall k, sw <> tau * IZR k).
  { intros k Z. apply NE. rewrite TS, TE. apply point_at_t_cs; [rewrite <- SC, <- EC, <- EQ1|rewrite <- SS, <- ES, <- EQ2]; rewrite Z; [symmetry; apply (proj1 (turn_period t0 k))|symmetry; apply (proj2 (turn_period t0 k))]. }
  exists t0. split; [|split; [reflexivity|split; [reflexivity|split; [reflexivity|split; [auto|split; [auto|split; [auto|split; [auto|]]]]]]]].
  - split; [lra|]. split; [lra|]. rewrite <- !point_at_t_frame, !PS. cbn [a_start a_end a_sweep A]. split; [transitivity (point_at_t A0 ts); [exact TS|]|transitivity (point_at_t A0 te); [exact TE|]]; apply point_at_t_cs; congruence.
  - pose proof (NZ 0%Z) as Z0. pose proof (NZ 1%Z) as Z1. pose proof (NZ (-1)%Z) as Z2. unfold tau in Z0, Z1, Z2. cbn [a_sweep A]. unfold sw in *. unfold tau in *.
    destruct cw; [destruct (Rlt_dec (t1 - t0) 0)|destruct (Rlt_dec 0 (t1 - t0))]; lra.
Qed.

(** * Three points on a circle *)
(** The turn at the second of three points on a circle, by their angles. *)
Lemma turn_circle : forall c r t x y,
  let p (z : R) := P (px c + r * cos z) (py c + r * sin z) in
  turn (p t) (p (t + 2 * x)) (p (t + 2 * y)) = 4 * (r * r) * (sin x * sin (y - x) * sin y).
Proof.
  intros c r t x y. cbv zeta. unfold turn. cbn [px py]. set (m := t).
  assert (H : forall z, cos (m + 2 * z) = cos m * (1 - 2 * (sin z * sin z)) - sin m * (2 * sin z * cos z) /\ sin (m + 2 * z) = sin m * (1 - 2 * (sin z * sin z)) + cos m * (2 * sin z * cos z)).
  { intros z. rewrite cos_plus, sin_plus, sin_2a, cos_2a_sin. split; ring. }
  destruct (H x) as [-> ->]. destruct (H y) as [-> ->]. rewrite sin_minus. pose proof (cs1 m) as C. pose proof (cs1 x) as CX. pose proof (cs1 y) as CY.
  set (a := cos m) in *. set (b := sin m) in *. set (p := cos x) in *. set (q := sin x) in *. set (u := cos y) in *. set (v := sin y) in *.
  assert (PP : p * p = 1 - q * q) by lra. assert (UU : u * u = 1 - v * v) by lra.
  transitivity (r * r * (a * a + b * b) * ((- 2 * (q * q)) * (2 * v * u - 2 * q * p) - (2 * q * p) * (2 * (q * q) - 2 * (v * v)))); [ring|]. rewrite C. ring.
Qed.
Lemma between : forall x y, 0 < x < PI -> 0 < y < PI -> 0 < sin x * sin (y - x) * sin y -> x < y.
Proof.
  intros x y X Y H. destruct (Rlt_le_dec x y); auto. exfalso. assert (0 < sin x) by (apply sin_gt_0; lra). assert (0 < sin y) by (apply sin_gt_0; lra).
  assert (0 <= sin (x - y)) by (apply sin_ge_0; lra). replace (y - x) with (- (x - y)) in H by ring. rewrite sin_neg in H. assert (0 < sin x * sin y) by (apply Rmult_lt_0_compat; auto). nra.
Qed.
Lemma angle_in_turn : forall t w, exists z, 0 <= z < 2 * PI /\ cos (t + z) = cos w /\ sin (t + z) = sin w.
Proof.
  intros t w. exists (rmod (w - t) tau). pose proof (rmod_range (w - t) tau tau_pos) as B. split; [unfold tau in *; lra|]. destruct (rmod_turns (w - t)) as (k & K).
  replace (t + rmod (w - t) tau) with (w + tau * IZR (- k)) by (rewrite opp_IZR; lra). apply turn_period.
Qed.
(** An arc of a circle turning the same way as its ends and a third point of the circle passes through that point. *)
Lemma passes : forall A t0 r k (cw : bool), proper_at A t0 -> arx A = r -> ary A = r -> 0 < r -> cos (rotation A) = 1 -> sin (rotation A) = 0 ->
  (if cw then 0 < a_sweep A < 2 * PI else - (2 * PI) < a_sweep A < 0) ->
  sqd (a_center A) k = r * r -> turn (a_start A) k (a_end A) <> 0 -> (cw = true <-> 0 < turn (a_start A) k (a_end A)) -> exists t, 0 < t < 1 /\ arc_point A t = k.
Proof.
  intros A t0 r k cw PA AX AY R0 RC RS SW D TZ TU. pose proof (arc_runs_own A t0 PA) as RU. destruct PA as (_ & _ & ST & EN). pose proof PI_RGT_0 as PP.
  set (c := a_center A) in *. set (p (z : R) := P (px c + r * cos z) (py c + r * sin z)).
  assert (EP : forall z, ellipse_at c (arx A) (ary A) (rotation A) z = p z). { intros z. rewrite AX, AY. unfold ellipse_at, frame, p. rewrite RC, RS. apply pt_ext; cbn [px py]; ring. }
  rewrite EP in ST, EN. set (sw := a_sweep A) in *.
  destruct (unit_angle ((px k - px c) / r) ((py k - py c) / r)) as (w & W1 & W2).
  { unfold sqd in D. transitivity (((px c - px k) * (px c - px k) + (py c - py k) * (py c - py k)) / (r * r)); [field; lra|]. rewrite D. field. lra. }
  assert (KP : k = p w). { unfold p. rewrite W1, W2. apply pt_ext; cbn [px py]; field; lra. }
  assert (PC : forall z z', cos z = cos z' -> sin z = sin z' -> p z = p z') by (intros z z' C S; unfold p; now rewrite C, S).
  assert (R2 : 0 < 4 * (r * r)) by nra.
  destruct cw.
  - assert (T : 0 < turn (a_start A) k (a_end A)) by (apply TU; auto).
    destruct (angle_in_turn t0 w) as (z & Z & C & S). assert (KZ : k = p (t0 + z)) by (rewrite KP; symmetry; apply PC; auto).
    assert (TE : turn (a_start A) k (a_end A) = 4 * (r * r) * (sin (z / 2) * sin (sw / 2 - z / 2) * sin (sw / 2))).
    { rewrite ST, EN, KZ. pose proof (turn_circle c r t0 (z / 2) (sw / 2)) as TC. cbv zeta in TC. fold (p t0) in TC. rewrite <- TC. replace (t0 + 2 * (z / 2)) with (t0 + z) by field. replace (t0 + 2 * (sw / 2)) with (t0 + sw) by field. reflexivity. }
    assert (Z0 : z <> 0). { intros ->. rewrite TE in TZ. apply TZ. replace (0 / 2) with 0 by field. rewrite sin_0. ring. }
    assert (z / 2 < sw / 2). { apply between; try lra. rewrite TE in T. apply (Rmult_lt_reg_l (4 * (r * r))); auto. lra. }
    exists (z / sw). split; [split; [apply Rdiv_lt_0_compat; lra|apply (Rmult_lt_reg_r sw); [lra|]; replace (z / sw * sw) with z by (field; lra); lra]|].
    rewrite RU, EP, KZ. f_equal. fold sw. field. lra.
  - assert (T : turn (a_start A) k (a_end A) < 0). { destruct (Rtotal_order (turn (a_start A) k (a_end A)) 0) as [L|[E|G]]; auto; [contradiction|]. apply TU in G. discriminate. }
    destruct (angle_in_turn w t0) as (z & Z & C & S). assert (KZ : k = p (t0 - z)).
    { rewrite KP. apply PC; [|]. - rewrite cos_minus, <- C, <- S, cos_plus, sin_plus. pose proof (cs1 z). transitivity ((cos z * cos z + sin z * sin z) * cos w); [rewrite H; ring|ring].
      - rewrite sin_minus, <- C, <- S, cos_plus, sin_plus. pose proof (cs1 z). transitivity ((cos z * cos z + sin z * sin z) * sin w); [rewrite H; ring|ring]. }
    assert (TE : turn (a_start A) k (a_end A) = - (4 * (r * r) * (sin (z / 2) * sin (- sw / 2 - z / 2) * sin (- sw / 2)))).
    { rewrite ST, EN, KZ. pose proof (turn_circle c r t0 (- (z / 2)) (sw / 2)) as TC. cbv zeta in TC. fold (p t0) in TC.
      replace (- sw / 2 - z / 2) with (- (sw / 2 - - (z / 2))) by field. replace (- sw / 2) with (- (sw / 2)) by field. rewrite !sin_neg. rewrite sin_neg in TC. transitivity (4 * (r * r) * (- sin (z / 2) * sin (sw / 2 - - (z / 2)) * sin (sw / 2))); [|ring]. rewrite <- TC. replace (t0 + 2 * - (z / 2)) with (t0 - z) by field. replace (t0 + 2 * (sw / 2)) with (t0 + sw) by field. reflexivity. }
    assert (Z0 : z <> 0). { intros ->. rewrite TE in TZ. apply TZ. replace (0 / 2) with 0 by field. rewrite sin_0. ring. }
    assert (z / 2 < - sw / 2). { apply between; try lra. rewrite TE in T. apply (Rmult_lt_reg_l (4 * (r * r))); auto. lra. }
    exists (z / - sw). split; [split; [apply Rdiv_lt_0_compat; lra|apply (Rmult_lt_reg_r (- sw)); [lra|]; replace (z / - sw * - sw) with z by (field; lra); lra]|].
    rewrite RU, EP, KZ. f_equal. fold sw. field. lra.
Qed.

(** * The centre from three points *)
Lemma control_center_spec : forall s k e, turn s k e <> 0 -> exists c, control_center s k e = Ok c /\ sqd c k = sqd c s /\ sqd c e = sqd c s.
Proof.
  intros s k e TZ. unfold control_center. cbv zeta. unfold turn in TZ. unfold towards. cbn [px py].
  set (ax := px k - px s) in *. set (ay := py k - py s) in *. set (bx := px e - px k) in *. set (by_ := py e - py k) in *.
  assert (FIN : forall cx cy, (cx - (px s + px k) / 2) * ax + (cy - (py s + py k) / 2) * ay = 0 -> (cx - (px k + px e) / 2) * bx + (cy - (py k + py e) / 2) * by_ = 0 ->
    sqd (P cx cy) k = sqd (P cx cy) s /\ sqd (P cx cy) e = sqd (P cx cy) s).
  { intros cx cy H1 H2. unfold sqd, ax, ay, bx, by_ in *. cbn [px py]. split; lra. }
  assert (PX : px k = px s + ax) by (unfold ax; ring). assert (PY : py k = py s + ay) by (unfold ay; ring).
  assert (EX : px e = px s + ax + bx) by (unfold bx, ax; ring). assert (EY : py e = py s + ay + by_) by (unfold by_, ay; ring).
  clearbody ax ay bx by_. rewrite EX, EY, PX, PY in *. clear EX EY PX PY.
  destruct (Req_EM_T ay 0) as [A0|A0].
  - assert (A1 : ax <> 0) by (intros Z; apply TZ; rewrite A0, Z; ring). assert (B1 : by_ <> 0) by (intros Z; apply TZ; rewrite A0, Z; ring).
    destruct (Req_EM_T bx 0) as [B0|B0]; [eexists; split; [reflexivity|apply FIN; rewrite ?A0, ?B0; field]|].
    destruct (Req_EM_T (by_ / bx) 0) as [Z|Z]; [exfalso; apply B1; transitivity (by_ / bx * bx); [field; auto|rewrite Z; ring]|]. eexists. split; [reflexivity|]. apply FIN; rewrite ?A0; field; auto.
  - destruct (Req_EM_T by_ 0) as [B0|B0].
    + destruct (Req_EM_T ax 0) as [A1|A1]; eexists; (split; [reflexivity|]); apply FIN; rewrite ?B0, ?A1; field; auto.
    + destruct (Req_EM_T ax 0) as [A1|A1].
      * destruct (Req_EM_T bx 0) as [B1|B1]; [exfalso; apply TZ; rewrite A1, B1; ring|]. eexists. split; [reflexivity|]. apply FIN; rewrite ?A1; field; auto.
      * destruct (Req_EM_T bx 0) as [B1|B1]; [eexists; split; [reflexivity|]; apply FIN; rewrite ?B1; field; auto|].
        destruct (Req_EM_T (ay / ax) (by_ / bx)) as [Z|Z].
        { exfalso. apply TZ. assert (Y : ay = by_ / bx * ax) by (rewrite <- Z; field; auto). rewrite Y. field. auto. }
        assert (NZ : by_ * ax - bx * ay <> 0) by lra. eexists. split; [reflexivity|]. apply FIN; field; repeat split; auto; lra.
Qed.
Lemma arc_control_spec : forall s k e, turn s k e <> 0 -> exists A t0, arc_control s k e None = Ok A /\ proper_at A t0 /\
  a_start A = s /\ a_end A = e /\ arx A = ary A /\ 0 < Rabs (a_sweep A) < 2 * PI /\ (0 < a_sweep A <-> 0 < turn s k e) /\ exists t, 0 < t < 1 /\ arc_point A t = k.
Proof.
  intros s k e TZ. destruct (control_center_spec s k e TZ) as (c & CC & DK & DE). unfold arc_control. rewrite CC. cbn [rbind].
  assert (NE : s <> e) by (intros ->; apply TZ; unfold turn; ring).
  set (r := distance c s). assert (R2 : sqd c s = r * r). { unfold r. rewrite distance_sq. unfold sqd. ring. }
  assert (R0 : 0 < r). { assert (0 <= r) by apply sqrt_pos. destruct (Req_dec r 0) as [Z|]; [|lra]. exfalso. rewrite Z in R2. rewrite R2 in DE. rewrite Rmult_0_l in R2, DE. unfold sqd in R2, DE.
    apply sum_sq_zero in R2. apply sum_sq_zero in DE. apply NE. apply pt_ext; lra. }
  set (cw := Z.eqb (orientation s k e) 2).
  destruct (around_proper s e c r cw R0 R2 ltac:(congruence) NE) as (t0 & PA & H1 & H2 & H3 & H4 & H5 & H6 & H7 & SW). unfold around_start. fold r.
  set (A := around s e c _ _ cw) in *. assert (CW : cw = true <-> 0 < turn s k e) by apply orientation_2.
  exists A, t0. split; auto. split; auto. split; auto. split; auto. split; [congruence|]. split; [|split].
  - destruct cw; [rewrite Rabs_right|rewrite Rabs_left]; lra.
  - rewrite <- CW. destruct cw; split; intros; auto; try lra; discriminate.
  - apply (passes A t0 r k cw); auto; rewrite ?H3, ?H1, ?H2; auto; congruence.
Qed.

(** * Sagitta *)
Lemma angle_to_unit : forall s e, s <> e -> let q := distance s e in 0 < q /\ px e - px s = q * cos (angle_to s e) /\ py e - py s = q * sin (angle_to s e).
Proof.
  intros s e NE q. assert (Q : 0 < q).
  { assert (0 <= q) by apply sqrt_pos. destruct (Req_dec q 0) as [Z|]; [|lra]. exfalso. pose proof (distance_sq s e) as D. fold q in D. rewrite Z, Rmult_0_l in D. symmetry in D. apply sum_sq_zero in D. apply NE. apply pt_ext; lra. }
  split; auto. pose proof (polar_angle_lemma s e) as [PL AE]. rewrite AE. fold q in PL. unfold polar in PL. split; [rewrite <- (f_equal px PL) at 1|rewrite <- (f_equal py PL) at 1]; cbn [px py]; ring.
Qed.
Lemma sagitta_turn : forall s e g, s <> e -> let k := polar (towards s e (/ 2)) (angle_to s e - tau / 4) g in
  turn s k e = g * distance s e /\ px k = (px s + px e) / 2 + g * (py e - py s) / distance s e /\ py k = (py s + py e) / 2 - g * (px e - px s) / distance s e.
Proof.
  intros s e g NE k. destruct (angle_to_unit s e NE) as (Q & EX & EY). set (q := distance s e) in *. set (a := angle_to s e) in *.
  assert (K1 : px k = (px s + px e) / 2 + g * (py e - py s) / q).
  { unfold k, polar, towards. cbn [px py]. replace (tau / 4) with (PI / 2) by (unfold tau; field). rewrite cos_minus, cos_PI2, sin_PI2, EY. field. lra. }
  assert (K2 : py k = (py s + py e) / 2 - g * (px e - px s) / q).
  { unfold k, polar, towards. cbn [px py]. replace (tau / 4) with (PI / 2) by (unfold tau; field). rewrite sin_minus, cos_PI2, sin_PI2, EX. field. lra. }
  split; auto. unfold turn. rewrite K1, K2. pose proof (distance_sq s e) as D. fold q in D.
  transitivity (g * (q * q) / q); [|field; lra]. rewrite D. field. lra.
Qed.

(** * Radius *)
Lemma arc_radius_spec : forall s e r ccw, s <> e -> exists A t0, arc_radius s e r ccw = Ok A /\ proper_at A t0 /\ a_start A = s /\ a_end A = e /\
  arx A = Rmax r (distance s e / 2) /\ ary A = arx A /\ 0 < Rabs (a_sweep A) <= PI /\
  (0 < a_sweep A <-> match ccw with Some b => b = false | None => distance s e / 2 < r end).
Proof.
  intros s e r ccw NE. destruct (angle_to_unit s e NE) as (Q & EX & EY). unfold arc_radius. cbv zeta. set (q := distance s e) in *. destruct (Req_EM_T q 0); [lra|]. set (a := angle_to s e) in *.
  assert (RE : (if Rlt_dec r (q / 2) then q / 2 else r) = Rmax r (q / 2)). { unfold Rmax. destruct (Rlt_dec r (q / 2)), (Rle_dec r (q / 2)); lra. }
  rewrite RE. set (rr := Rmax r (q / 2)). assert (RL : q / 2 <= rr) by apply Rmax_r. assert (R0 : 0 < rr) by lra.
  set (h := sqrt (rr ^ 2 - (q / 2) ^ 2)). assert (H2 : h * h = rr * rr - q / 2 * (q / 2)). { unfold h. rewrite sqrt_sqrt; [ring|]. nra. }
  assert (H0 : 0 <= h) by apply sqrt_pos.
  set (c1 := P ((px s + px e) / 2 + h * (py s - py e) / q) ((py s + py e) / 2 + h * (px e - px s) / q)).
  set (c2 := P ((px s + px e) / 2 - h * (py s - py e) / q) ((py s + py e) / 2 - h * (px e - px s) / q)).
  pose proof (distance_sq s e) as DQ. fold q in DQ.
  assert (D : sqd c1 s = rr * rr /\ sqd c1 e = rr * rr /\ sqd c2 s = rr * rr /\ sqd c2 e = rr * rr).
  { assert (G : rr * rr = (q * q) * / 4 + h * h * ((q * q) / (q * q))) by (rewrite H2; field; lra).
    rewrite DQ in G at 1 2. unfold sqd, c1, c2. cbn [px py]. repeat split; rewrite G; field; lra. }
  destruct D as (D1 & D2 & D3 & D4).
  assert (T1 : turn s c1 e = - (h * q)). { unfold turn, c1. cbn [px py]. transitivity (- (h * (q * q) / q)); [|field; lra]. rewrite DQ. field. lra. }
  assert (HR : 0 < h <-> q / 2 < r).
  { unfold rr, Rmax in *. destruct (Rle_dec r (q / 2)); split; intros; try lra; [|]. - exfalso. nra. - destruct (Req_dec h 0) as [Z|]; [|lra]. exfalso. rewrite Z in H2. nra. }
  set (cw := Z.eqb (orientation s c1 e) 1). assert (CW : cw = true <-> 0 < h). { unfold cw. rewrite orientation_1, T1. split; intros; nra. }
  set (asked := match ccw with Some b => b | None => false end). set (cw' := match ccw with Some b => negb b | None => cw end).
  set (c := if asked && cw || negb cw then c2 else c1).
  assert (DC : sqd c s = rr * rr /\ sqd c e = rr * rr) by (unfold c; destruct (asked && cw || negb cw); auto). destruct DC as [DC1 DC2].
  destruct (around_proper s e c rr cw' R0 DC1 DC2 NE) as (t0 & PA & P1 & P2 & P3 & P4 & P5 & P6 & P7 & SW). set (A := around s e c _ _ cw') in *.
  exists A, t0. split; auto. split; auto. split; auto. split; auto. split; auto. split; [congruence|].
  (* the side of the centre bounds the sweep *)
  assert (SI : rr * rr * sin (a_sweep A) = (px s - px c) * (py e - py c) - (py s - py c) * (px e - px c)).
  { destruct PA as (_ & _ & ST & EN). rewrite P1, P3, P4, P5 in ST. rewrite P2, P3, P4, P5 in EN. unfold ellipse_at, frame in ST, EN. rewrite P6, P7 in ST, EN.
    assert (SX : px s - px c = rr * cos t0) by (rewrite ST at 1; cbn [px py]; ring). assert (SY : py s - py c = rr * sin t0) by (rewrite ST at 1; cbn [px py]; ring).
    assert (FX : px e - px c = rr * cos (t0 + a_sweep A)) by (rewrite EN at 1; cbn [px py]; ring). assert (FY : py e - py c = rr * sin (t0 + a_sweep A)) by (rewrite EN at 1; cbn [px py]; ring).
    rewrite SX, SY, FX, FY. replace (a_sweep A) with ((t0 + a_sweep A) - t0) at 1 by ring. rewrite sin_minus. ring. }
  assert (CR : (px s - px c) * (py e - py c) - (py s - py c) * (px e - px c) = if asked && cw || negb cw then - (h * q) else h * q).
  { unfold c. destruct (asked && cw || negb cw); unfold c1, c2; cbn [px py]; [transitivity (- (h * (q * q) / q)); [rewrite DQ; field; lra|field; lra]|transitivity (h * (q * q) / q); [rewrite DQ; field; lra|field; lra]]. }
  rewrite CR in SI. pose proof PI_RGT_0. assert (RR : 0 < rr * rr) by nra. assert (HQ : 0 <= h * q) by nra. set (sw := a_sweep A) in *.
  assert (UP : 0 < sw < 2 * PI -> 0 <= sin sw -> sw <= PI). { intros U V. destruct (Rle_lt_dec sw PI); auto. assert (sin sw < 0) by (apply sin_lt_0; lra). lra. }
  assert (DN : - (2 * PI) < sw < 0 -> sin sw <= 0 -> - PI <= sw). { intros U V. destruct (Rle_lt_dec (- PI) sw); auto. assert (SN : sin (- sw) < 0) by (apply sin_lt_0; lra). rewrite sin_neg in SN. lra. }
  assert (HZ : cw = false -> h = 0). { intros E. destruct (Req_dec h 0); auto. exfalso. assert (cw = true) by (apply CW; lra). congruence. }
  assert (SG : (cw' = true -> 0 <= sin sw) /\ (cw' = false -> sin sw <= 0)).
  { destruct (bool_dec cw true) as [E|E].
    - rewrite E in SI. unfold cw'. rewrite E. destruct ccw as [[|]|]; cbn in *; split; intros; try discriminate; nra.
    - apply not_true_is_false in E. rewrite (HZ E) in SI. assert (sin sw = 0). { destruct (asked && cw || negb cw); apply (Rmult_eq_reg_l (rr * rr)); lra. } split; lra. }
  destruct SG as [SG1 SG2]. split.
  - destruct cw'; [rewrite Rabs_right by lra; split; [lra|auto]|rewrite Rabs_left by lra; split; [lra|]]. assert (- PI <= sw) by auto. lra.
  - assert (SWS : 0 < sw <-> cw' = true) by (clear - SW; destruct cw'; split; intros; auto; try lra; try (exfalso; lra); try discriminate).
    rewrite SWS. unfold cw'. destruct ccw as [[|]|]; cbn; [intuition congruence|intuition congruence|]. tauto.
Qed.
