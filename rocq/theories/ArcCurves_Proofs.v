(** Proofs about arcs as Bezier curves. *)
Require Import Reals ZArith List Bool Lra Lia Psatz.
Require Import Verif.Base Verif.Angle_Model Verif.Angle_Proofs Verif.Point_Model Verif.Point_Proofs Verif.Matrix_Model Verif.Curve_Model.
Require Import Verif.Arc_Model Verif.Arc_Spec Verif.Arc_Proofs.
Import ListNotations.
Open Scope R_scope.

Lemma cubic_slices_chain : forall A n ts cur p, chain p (cubic_slices A (S n) ts cur p) (a_end A).
Proof.
  intros A n. induction n as [|n IH]; intros ts cur p; [cbn; auto|].
  change (chain p (cubic_slices A (S (S n)) ts cur p) (a_end A)). cbn [cubic_slices chain g_start g_end]. split; auto. apply IH.
Qed.
Lemma quad_slices_chain : forall A n ts cur p, chain p (quad_slices A (S n) ts cur p) (a_end A).
Proof.
  intros A n. induction n as [|n IH]; intros ts cur p; [cbn; auto|].
  change (chain p (quad_slices A (S (S n)) ts cur p) (a_end A)). cbn [quad_slices chain g_start g_end]. split; auto. apply IH.
Qed.
Lemma cubic_slices_length : forall A n ts cur p, length (cubic_slices A n ts cur p) = n.
Proof. intros A n. induction n; intros; cbn; auto. Qed.
Lemma quad_slices_length : forall A n ts cur p, length (quad_slices A n ts cur p) = n.
Proof. intros A n. induction n; intros; cbn; auto. Qed.

(** [n] pieces are left, [i] were made. *)
Lemma cubic_slices_nth : forall A t0 ts n i p, cos (start_t A) = cos t0 -> sin (start_t A) = sin t0 ->
  a_end A = ellipse_at (a_center A) (arx A) (ary A) (rotation A) (t0 + INR (i + n) * ts) ->
  p = ellipse_at (a_center A) (arx A) (ary A) (rotation A) (t0 + INR i * ts) ->
  forall j, (j < n)%nat -> let f x := ellipse_at (a_center A) (arx A) (ary A) (rotation A) (t0 + INR x * ts) in
    let v x := ellipse_vel (arx A) (ary A) (rotation A) (t0 + INR x * ts) in
    let alpha := sin ts * (sqrt (4 + 3 * tan (ts / 2) ^ 2) - 1) / 3 in
    nth_error (cubic_slices A n ts (start_t A + INR i * ts) p) j =
    Some (GCubic (f (i + j)%nat) (along (f (i + j)%nat) (v (i + j)%nat) alpha) (along (f (S (i + j))) (v (S (i + j))) (- alpha)) (f (S (i + j)))).
Proof.
  intros A t0 ts n. induction n as [|n IH]; intros i p C S EN PE j J f v alpha; [lia|].
  assert (NX : start_t A + INR i * ts + ts = start_t A + INR (Datatypes.S i) * ts) by (rewrite S_INR; ring).
  destruct (cs_add _ _ (INR i * ts) C S) as [C0 S0]. destruct (cs_add _ _ (INR (Datatypes.S i) * ts) C S) as [C1 S1].
  assert (PN : match n with O => a_end A | _ => P (px (a_center A) + arx A * cos (start_t A + INR i * ts + ts) * cos (rotation A) - ary A * sin (start_t A + INR i * ts + ts) * sin (rotation A))
                            (py (a_center A) + arx A * cos (start_t A + INR i * ts + ts) * sin (rotation A) + ary A * sin (start_t A + INR i * ts + ts) * cos (rotation A)) end = f (Datatypes.S i)).
  { destruct n; [rewrite EN; unfold f; do 3 f_equal; f_equal; lia|]. rewrite NX, C1, S1. unfold f, ellipse_at, frame. apply pt_ext; cbn [px py]; ring. }
  cbn [cubic_slices]. cbv zeta. rewrite PN. destruct j as [|j].
  - cbn [nth_error]. rewrite Nat.add_0_r, NX, C0, S0, C1, S1, PE. fold alpha. fold (f i). f_equal. unfold along, v, ellipse_vel, frame. cbn [px py].
    f_equal; apply pt_ext; cbn [px py]; ring.
  - cbn [nth_error]. rewrite NX. replace (i + Datatypes.S j)%nat with (Datatypes.S i + j)%nat by lia. apply IH; auto; [|lia]. rewrite EN. do 2 f_equal. f_equal. f_equal. lia.
Qed.
Lemma quad_slices_nth : forall A t0 ts n i p, cos (start_t A) = cos t0 -> sin (start_t A) = sin t0 ->
  a_end A = ellipse_at (a_center A) (arx A) (ary A) (rotation A) (t0 + INR (i + n) * ts) ->
  p = ellipse_at (a_center A) (arx A) (ary A) (rotation A) (t0 + INR i * ts) ->
  forall j, (j < n)%nat -> let f x := ellipse_at (a_center A) (arx A) (ary A) (rotation A) (t0 + INR x * ts) in
    nth_error (quad_slices A n ts (start_t A + INR i * ts) p) j =
    Some (GQuad (f (i + j)%nat)
      (ellipse_at (a_center A) ((4 - cos ts) / 3 * arx A) ((4 - cos ts) / 3 * ary A) (rotation A) (t0 + (INR (i + j) + / 2) * ts)) (f (S (i + j)))).
Proof.
  intros A t0 ts n. induction n as [|n IH]; intros i p C S EN PE j J f; [lia|].
  assert (NX : start_t A + INR i * ts + ts = start_t A + INR (Datatypes.S i) * ts) by (rewrite S_INR; ring).
  destruct (cs_add _ _ (INR (Datatypes.S i) * ts) C S) as [C1 S1].
  assert (PN : match n with O => a_end A | _ => point_at_t A (start_t A + INR i * ts + ts) end = f (Datatypes.S i)).
  { destruct n; [rewrite EN; unfold f; do 3 f_equal; f_equal; lia|]. rewrite NX, point_at_t_frame. now apply ellipse_at_cs. }
  cbn [quad_slices]. cbv zeta. rewrite PN. destruct j as [|j].
  - cbn [nth_error]. rewrite Nat.add_0_r, PE. fold (f i). f_equal. f_equal. replace ((start_t A + INR i * ts + ts + (start_t A + INR i * ts)) / 2) with (start_t A + (INR i + / 2) * ts) by field.
    destruct (cs_add _ _ ((INR i + / 2) * ts) C S) as [-> ->]. unfold ellipse_at, frame. apply pt_ext; cbn [px py]; ring.
  - cbn [nth_error]. rewrite NX. replace (i + Datatypes.S j)%nat with (Datatypes.S i + j)%nat by lia. apply IH; auto; [|lia]. rewrite EN. do 2 f_equal. f_equal. f_equal. lia.
Qed.

Lemma alpha_sign : forall s, 0 < s < PI -> 0 < sin s * (sqrt (4 + 3 * tan (s / 2) ^ 2) - 1) / 3.
Proof.
  intros s S. assert (0 < sin s) by (apply sin_gt_0; lra). assert (1 < sqrt (4 + 3 * tan (s / 2) ^ 2)).
  { rewrite <- sqrt_1 at 1. apply sqrt_lt_1; try lra; pose proof (sq_pos (tan (s / 2))); lra. }
  apply Rdiv_lt_0_compat; [|lra]. apply Rmult_lt_0_compat; lra.
Qed.
Lemma alpha_odd : forall s, sin (- s) * (sqrt (4 + 3 * tan (- s / 2) ^ 2) - 1) / 3 = - (sin s * (sqrt (4 + 3 * tan (s / 2) ^ 2) - 1) / 3).
Proof. intros s. rewrite sin_neg. replace (- s / 2) with (- (s / 2)) by field. rewrite tan_neg. replace ((- tan (s / 2)) ^ 2) with (tan (s / 2) ^ 2) by ring. field. Qed.

Lemma ceil_spec : forall x, x <= IZR (ceil x) < x + 1.
Proof. intros x. unfold ceil. rewrite opp_IZR. pose proof (base_Int_part (- x)). lra. Qed.
Lemma required_spec : forall A, let n := arc_required A in
  (n = 0%nat <-> a_sweep A = 0) /\ Rabs (a_sweep A) <= INR n * (PI / 6) /\ INR n * (PI / 6) < Rabs (a_sweep A) + PI / 6.
Proof.
  intros A. cbv zeta. unfold arc_required. replace (tau / 12) with (PI / 6) by (unfold tau; field). pose proof PI_RGT_0. set (x := Rabs (a_sweep A) / (PI / 6)).
  assert (X0 : 0 <= x). { unfold x. apply Rmult_le_pos; [apply Rabs_pos|]. left. apply Rinv_0_lt_compat. lra. }
  pose proof (ceil_spec x) as C. assert (Z0 : (0 <= ceil x)%Z). { apply le_IZR. lra. }
  assert (N : INR (Z.to_nat (ceil x)) = IZR (ceil x)) by (rewrite INR_IZR_INZ, Z2Nat.id; auto).
  assert (XE : x * (PI / 6) = Rabs (a_sweep A)) by (unfold x; field; lra).
  split; [split|].
  - intros E. rewrite E in N. cbn in N. assert (x = 0) by lra. rewrite H0 in XE. destruct (Req_dec (a_sweep A) 0); auto. pose proof (Rabs_pos_lt (a_sweep A) H1). lra.
  - intros E. assert (x = 0) by (unfold x; rewrite E, Rabs_R0; unfold Rdiv; ring). assert (IZR (ceil x) < 1) by lra. apply lt_IZR in H1. replace (ceil x) with 0%Z by lia. reflexivity.
  - rewrite N, <- XE. split; [apply Rmult_le_compat_r; lra|]. nra.
Qed.
